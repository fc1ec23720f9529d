(** Model of the combinatorial stepping functions used to enumerate partitions of a
    neighbourhood:
    - [KPartitionIteratorMultiPredicate], shex_validation/src/k_partitions.rs:18-88;
    - [next_permutation], shex_validation/src/class_partitions.rs:316-339;
    - [first_composition] and [next_composition],
      shex_validation/src/class_partitions.rs:175-204.

    Simplifications: [usize] is [nat] (no overflow); a loop whose termination is to be
    proved takes fuel and answers [None] when it runs out; in-place updates return the
    new list; an index out of range is a panic of the Rust code and is modelled as a
    separate answer where it is not excluded by the loop bounds themselves. *)

Require Import List Arith Bool.
Import ListNotations.

(** [a[i] = x] *)
Fixpoint set_nth {A} (i : nat) (x : A) (l : list A) : list A :=
  match l, i with
  | [], _ => []
  | _ :: l, 0 => x :: l
  | y :: l, S i => y :: set_nth i x l
  end.

(** ** class_partitions.rs:316-339 [next_permutation] *)

(** the answer [false] leaves the array as it is *)
Inductive stepped := Last | Next (a : list nat) | Panic.

(** lines 320-329: search [i] downwards *)
Fixpoint find_ascent (a : list nat) (i : nat) : option nat :=
  if nth i a 0 <? nth (S i) a 0 then Some i
  else match i with 0 => None | S i => find_ascent a i end.

(** lines 330-333: search [j] downwards; [None] is the underflow of [j] *)
Fixpoint find_above (a : list nat) (x : nat) (j : nat) : option nat :=
  if nth j a 0 <=? x then match j with 0 => None | S j => find_above a x j end
  else Some j.

(** line 334 *)
Definition swap (a : list nat) (i j : nat) : list nat :=
  set_nth j (nth i a 0) (set_nth i (nth j a 0) a).

(** line 335 *)
Definition reverse_from (a : list nat) (i : nat) : list nat := firstn i a ++ rev (skipn i a).

Definition next_permutation (a : list nat) : stepped :=
  if length a <? 2 then Last
  else match find_ascent a (length a - 2) with
       | None => Last
       | Some i => match find_above a (nth i a 0) (length a - 1) with
                   | None => Panic
                   | Some j => Next (reverse_from (swap a i j) (i + 1))
                   end
       end.

(** ** class_partitions.rs:175-204 *)

(** [first_composition]; a class has at least one eligible bucket, so [c[0]] exists *)
Definition first_composition (size e : nat) : list nat := set_nth 0 size (repeat 0 e).

(** the loop of [next_composition] over the positions below [n], downwards *)
Fixpoint comp_from (c : list nat) (n : nat) : option (list nat) :=
  match n with
  | 0 => None
  | S i =>
      if 0 <? nth i c 0
      then let right_sum := list_sum (skipn (i + 1) c) in
           let c1 := set_nth i (nth i c 0 - 1) c in
           let c2 := firstn (i + 1) c1 ++ repeat 0 (length c - (i + 1)) in
           Some (set_nth (i + 1) (right_sum + 1) c2)
      else comp_from c i
  end.
Definition next_composition (c : list nat) : option (list nat) := comp_from c (length c - 1).

(** ** k_partitions.rs:18-88 *)

Section KPartition.
  Variable T : Type.

  (** lines 27-44 [new] *)
  Definition kp_items (predicates : list (list T -> bool)) (items : list T) : list T :=
    filter (fun item => existsb (fun p => p [item]) predicates) items.
  Definition kp_start (items : list T) : option (list nat) := Some (repeat 0 (length items)).

  (** [partitions[i].push(x)] *)
  Definition push_at (i : nat) (x : T) (ps : list (list T)) : list (list T) :=
    set_nth i (nth i ps [] ++ [x]) ps.
  (** lines 57-61: build the partition *)
  Definition build_partition (items : list T) (k : nat) (a : list nat) : list (list T) :=
    fold_left (fun ps xi => push_at (snd xi) (fst xi) ps) (combine items a) (repeat [] k).

  (** lines 63-75: the odometer; the carry that remains and the new digits *)
  Fixpoint incr (k : nat) (carry : bool) (a : list nat) : bool * list nat :=
    match a with
    | [] => (carry, [])
    | d :: a =>
        if carry
        then let d := d + 1 in
             if d <? k then let (c, a) := incr k false a in (c, d :: a)
             else let (c, a) := incr k true a in (c, 0 :: a)
        else let (c, a) := incr k false a in (c, d :: a)
    end.
  (** line 77 *)
  Definition kp_advance (k : nat) (a : list nat) : option (list nat) :=
    let (carry, a) := incr k true a in if carry then None else Some a.

  (** lines 79-83 *)
  Definition kp_valid (predicates : list (list T -> bool)) (ps : list (list T)) : bool :=
    forallb (fun sp => snd sp (fst sp)) (combine ps predicates).

  (** lines 53-88 [next]: the item and the new state; [None] out of fuel *)
  Fixpoint kp_next (fuel : nat) (predicates : list (list T -> bool)) (items : list T) (current : option (list nat))
    : option (option (list (list T)) * option (list nat)) :=
    match fuel with
    | 0 => None
    | S fuel =>
        match current with
        | None => Some (None, None)
        | Some a =>
            let ps := build_partition items (length predicates) a in
            let current := kp_advance (length predicates) a in
            if kp_valid predicates ps then Some (Some ps, current)
            else kp_next fuel predicates items current
        end
    end.

  (** collecting the iterator; [None] out of fuel *)
  Fixpoint kp_collect (fuel : nat) (predicates : list (list T -> bool)) (items : list T) (current : option (list nat))
    : option (list (list (list T))) :=
    match fuel with
    | 0 => None
    | S fuel' =>
        match kp_next fuel predicates items current with
        | None => None
        | Some (None, _) => Some []
        | Some (Some ps, current) =>
            match kp_collect fuel' predicates items current with
            | Some rest => Some (ps :: rest)
            | None => None
            end
        end
    end.
  Definition k_partitions (fuel : nat) (predicates : list (list T -> bool)) (items : list T) :=
    let items := kp_items predicates items in
    kp_collect fuel predicates items (kp_start items).
End KPartition.

Arguments kp_items {T}. Arguments kp_start {T}. Arguments push_at {T}. Arguments build_partition {T}.
Arguments kp_valid {T}. Arguments kp_next {T}. Arguments kp_collect {T}. Arguments k_partitions {T}.
