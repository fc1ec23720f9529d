(** Model of the class-based enumeration of neighbourhood partitions,
    shex_validation/src/class_partitions.rs.

    Simplifications: neighbours are pairs of a predicate and a value, both numbers (the
    context is ignored by the conditions modelled here); the buckets are the entries of
    the [HashMap] in iteration order, so every order is covered; the classes are passed
    as a list, see [classes_of]; loops take fuel and answer [None] when it runs out,
    [None] also stands for a panic. *)

Require Import List Arith Bool Permutation.
Import ListNotations.
From Verif Require Import TableModel RbeFeasModel StepModel.

Record class := mkClass { c_values : list (nat * nat); c_eligible : list nat }.

Section Class.
  Variable eval : nat -> nat -> bool.
  (** the tables of each bucket *)
  Variable buckets : list (list table).

  (** class_partitions.rs:96-99 [bucket_keys] *)
  Definition bucket_keys (rbes : list table) : list nat := flat_map (fun t => map fst (t_keys t)) rbes.
  Definition mem_nat (x : nat) (l : list nat) : bool := existsb (Nat.eqb x) l.
  (** class_partitions.rs:103 *)
  Definition eligible_of (k : nat) : list nat :=
    filter (fun b => mem_nat k (bucket_keys (nth b buckets []))) (seq 0 (length buckets)).

  (** class_partitions.rs:101-112: the map from eligible buckets to values; an entry is
      created at the first value, later values are appended *)
  Definition nat_list_eqb (a b : list nat) : bool := if list_eq_dec Nat.eq_dec a b then true else false.
  Fixpoint class_push (e : list nat) (kv : nat * nat) (cs : list class) : list class :=
    match cs with
    | [] => [mkClass [kv] e]
    | c :: cs => if nat_list_eqb (c_eligible c) e then mkClass (c_values c ++ [kv]) (c_eligible c) :: cs
                 else c :: class_push e kv cs
    end.
  Definition class_map (neighs : list (nat * nat)) : list class :=
    fold_left (fun cs kv => let e := eligible_of (fst kv) in
                            match e with [] => cs | _ => class_push e kv cs end) neighs [].
  (** class_partitions.rs:113-123: the map is iterated in an unspecified order and the
      result is sorted, so that the order of the classes is one of their permutations *)
  Definition classes_of (neighs : list (nat * nat)) (cs : list class) : Prop := Permutation (class_map neighs) cs.

  Variable classes : list class.

  (** ** the search state, class_partitions.rs:60-80 *)
  Record state := mkState {
    st_counts : list (option (list nat));
    st_level : nat;
    st_perms : option (list (list nat));
    st_exhausted : bool }.

  (** [position] *)
  Fixpoint position (b : nat) (l : list nat) : option nat :=
    match l with
    | [] => None
    | x :: l => if x =? b then Some 0 else option_map S (position b l)
    end.

  (** class_partitions.rs:142-158 [bucket_pool] *)
  Definition bucket_pool (counts : list (option (list nat))) (b : nat) : list (nat * nat) :=
    flat_map (fun cc : class * option (list nat) =>
                match position b (c_eligible (fst cc)) with
                | None => []
                | Some pos =>
                    let reachable := match snd cc with None => true | Some c => 0 <? nth pos c 0 end in
                    if reachable then c_values (fst cc) else []
                end) (combine classes counts).

  (** class_partitions.rs:161-171 [feasible_now] *)
  Definition feasible_now (counts : list (option (list nat))) : bool :=
    forallb (fun br : nat * list table =>
               forallb (fun t => feasible_neighs eval t (bucket_pool counts (fst br))) (snd br))
            (enumerate buckets).

  (** class_partitions.rs:116-137 [new] *)
  Definition start : state :=
    let counts := repeat None (length classes) in
    mkState counts 0 None (negb (feasible_now counts)).

  Definition class_at (lvl : nat) : class := nth lvl classes (mkClass [] []).

  (** class_partitions.rs:174-181 [first_composition]; [c[0]] panics without a bucket *)
  Definition first_comp (counts : list (option (list nat))) (lvl : nat) : list (option (list nat)) :=
    let c := class_at lvl in
    set_nth lvl (Some (first_composition (length (c_values c)) (length (c_eligible c)))) counts.

  (** class_partitions.rs:184-204 [next_composition] *)
  Definition next_comp (counts : list (option (list nat))) (lvl : nat) : option (bool * list (option (list nat))) :=
    match nth lvl counts None with
    | None => None
    | Some c => match next_composition c with
                | Some d => Some (true, set_nth lvl (Some d) counts)
                | None => Some (false, set_nth lvl None counts)
                end
    end.

  (** class_partitions.rs:284-293: move on until a feasible composition or the end *)
  Fixpoint settle (fuel : nat) (counts : list (option (list nat))) (lvl : nat)
    : option (bool * list (option (list nat))) :=
    if feasible_now counts then Some (true, counts)
    else match fuel with
         | 0 => None
         | S fuel => match next_comp counts lvl with
                     | None => None
                     | Some (false, counts) => Some (false, counts)
                     | Some (true, counts) => settle fuel counts lvl
                     end
         end.

  (** [sort_unstable] *)
  Fixpoint insert (x : nat) (l : list nat) : list nat :=
    match l with
    | [] => [x]
    | y :: l => if x <=? y then x :: y :: l else y :: insert x l
    end.
  Definition sort (l : list nat) : list nat := fold_right insert [] l.

  (** class_partitions.rs:206-221 [init_perms] *)
  Definition first_perm (cc : class * option (list nat)) : option (list nat) :=
    match snd cc with
    | None => None
    | Some c => Some (sort (concat (map (fun pc : nat * nat => repeat (nth (fst pc) (c_eligible (fst cc)) 0) (snd pc))
                                        (enumerate c))))
    end.
  Fixpoint all_some {A} (l : list (option A)) : option (list A) :=
    match l with
    | [] => Some []
    | Some x :: l => option_map (cons x) (all_some l)
    | None :: _ => None
    end.
  Definition init_perms (counts : list (option (list nat))) : option (list (list nat)) :=
    all_some (map first_perm (combine classes counts)).

  (** class_partitions.rs:224-233 [advance_perms]; [None] when [next_permutation] panics *)
  Fixpoint advance_perms (perms : list (list nat)) : option (bool * list (list nat)) :=
    match perms with
    | [] => Some (false, [])
    | p :: perms =>
        match next_permutation p with
        | Next p => Some (true, p :: perms)
        | Last => option_map (fun r : bool * list (list nat) => (fst r, sort p :: snd r)) (advance_perms perms)
        | Panic => None
        end
    end.

  (** class_partitions.rs:235-248 [current_partition]: the subset of each bucket *)
  Definition current_partition (perms : list (list nat)) : list (list (nat * nat)) :=
    fold_left (fun subsets (cp : class * list nat) =>
                 fold_left (fun subsets (vb : (nat * nat) * nat) => push_at (snd vb) (fst vb) subsets)
                           (combine (c_values (fst cp)) (snd cp)) subsets)
              (combine classes perms) (repeat [] (length buckets)).

  (** class_partitions.rs:280-310: one iteration of the search loop; the state to go on
      with, or the answer *)
  Inductive searched := Continue (s : state) | Answer (x : option (list (list (nat * nat)))) (s : state).
  Definition body (fuel : nat) (s : state) : option searched :=
    let lvl := st_level s in
    let back counts :=
      let counts := set_nth lvl None counts in
      match lvl with
      | 0 => Answer None (mkState counts 0 (st_perms s) true)
      | S l => Continue (mkState counts l (st_perms s) (st_exhausted s))
      end in
    let finish counts :=
      match settle fuel counts lvl with
      | None => None
      | Some (true, counts) => Some (Continue (mkState counts (S lvl) (st_perms s) (st_exhausted s)))
      | Some (false, counts) => Some (back counts)
      end in
    if lvl =? length classes
    then match init_perms (st_counts s) with
         | None => None
         | Some perms => Some (Answer (Some (current_partition perms))
                                      (mkState (st_counts s) lvl (Some perms) (st_exhausted s)))
         end
    else match nth lvl (st_counts s) None with
         | None => finish (first_comp (st_counts s) lvl)
         | Some _ => match next_comp (st_counts s) lvl with
                     | None => None
                     | Some (true, counts) => finish counts
                     | Some (false, counts) => Some (back counts)
                     end
         end.
  Fixpoint search (fuel : nat) (s : state) : option (option (list (list (nat * nat))) * state) :=
    match fuel with
    | 0 => None
    | S fuel => match body fuel s with
                | None => None
                | Some (Answer x s) => Some (x, s)
                | Some (Continue s) => search fuel s
                end
    end.

  (** class_partitions.rs:262-311 [next] *)
  Definition cp_next (fuel : nat) (s : state) : option (option (list (list (nat * nat))) * state) :=
    if st_exhausted s then Some (None, s)
    else match st_perms s with
         | None => search fuel s
         | Some perms =>
             match advance_perms perms with
             | None => None
             | Some (true, perms) =>
                 Some (Some (current_partition perms), mkState (st_counts s) (st_level s) (Some perms) false)
             | Some (false, _) =>
                 match classes with
                 | [] => Some (None, mkState (st_counts s) (st_level s) None true)
                 | _ => search fuel (mkState (st_counts s) (st_level s - 1) None false)
                 end
             end
         end.
End Class.
