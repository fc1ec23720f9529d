(** Prefix maps.

    prefixmap/src/prefix_map.rs lines 13-31 (PrefixMap), 32-36 (PartialEq), 38-52 (Hash), 105-120
    (add_prefix), 122-125 (find), 127-130 (remove_prefix), 132-139 (merge), 362-364 (qualify), 388-397
    (qualify_optional), 424-441 (qualify_and_length), 466-468 (qualify_local), 470-480 (longest_prefix_match),
    509-514 (resolve), 560-578 (resolve_prefix_local), 589-601 (Iterator);
    rudof_iri/src/iri/iris.rs lines 82-96 (extend).

    Simplifications: a string is the list of its bytes; an [IndexMap] is the list of its
    entries in order. Colours and hyperlinks are off. Whether a string is an IRI
    ([NamedNode::new]) is a parameter. Errors carry no payload. *)
From Coq Require Import List Arith Bool.
Import ListNotations.

Definition str := list nat.
Fixpoint str_eqb (a b : str) : bool :=
  match a, b with
  | [], [] => true
  | x :: a, y :: b => Nat.eqb x y && str_eqb a b
  | _, _ => false
  end.

Definition colon : nat := 58.
Definition slash : nat := 47.
Definition hash_sign : nat := 35.
Definition lt_sign : nat := 60.
Definition gt_sign : nat := 62.

Definition pmap := list (str * str).

(** [IndexMap::get] *)
Fixpoint find (a : str) (m : pmap) : option str :=
  match m with
  | [] => None
  | (b, i) :: r => if str_eqb a b then Some i else find a r
  end.
(** [IndexMap::insert] *)
Fixpoint add_prefix (a i : str) (m : pmap) : pmap :=
  match m with
  | [] => [(a, i)]
  | (b, j) :: r => if str_eqb a b then (b, i) :: r else (b, j) :: add_prefix a i r
  end.
(** [IndexMap::shift_remove] *)
Fixpoint remove_prefix (a : str) (m : pmap) : pmap :=
  match m with
  | [] => []
  | (b, j) :: r => if str_eqb a b then r else (b, j) :: remove_prefix a r
  end.
(** lines 132-139 *)
Definition merge (m other : pmap) : pmap := fold_left (fun m ai => add_prefix (fst ai) (snd ai) m) other m.

(** [str::strip_prefix] *)
Fixpoint strip_prefix (p s : str) : option str :=
  match p, s with
  | [], _ => Some s
  | x :: p, y :: s => if Nat.eqb x y then strip_prefix p s else None
  | _ :: _, [] => None
  end.

(** [Iterator::max_by_key]: the last of the maximal elements *)
Fixpoint max_by_key {A} (f : A -> nat) (l : list A) : option A :=
  match l with
  | [] => None
  | x :: r => match max_by_key f r with
              | Some y => if Nat.leb (f x) (f y) then Some y else Some x
              | None => Some x
              end
  end.

(** lines 470-480 *)
Definition longest_prefix_match (m : pmap) (iri : str) : option (str * str) :=
  max_by_key (fun ar : str * str => length iri - length (snd ar))
    (flat_map (fun ai : str * str => match strip_prefix (snd ai) iri with Some rest => [(fst ai, rest)] | None => [] end) m).

(** lines 388-397 and 362-364 *)
Definition qualify_optional (m : pmap) (iri : str) : option str :=
  match longest_prefix_match m iri with
  | Some (alias, rest) => Some (alias ++ colon :: rest)
  | None => None
  end.
Definition qualify (m : pmap) (iri : str) : str :=
  match qualify_optional m iri with Some s => s | None => lt_sign :: iri ++ [gt_sign] end.
(** lines 424-441 *)
Definition qualify_and_length (m : pmap) (iri : str) : str * nat :=
  match longest_prefix_match m iri with
  | Some (alias, rest) => (alias ++ colon :: rest, length alias + 1 + length rest)
  | None => (lt_sign :: iri ++ [gt_sign], length iri + 2)
  end.

(** [str::rsplit_once(':')]: split at the last colon *)
Fixpoint rsplit_once (s : str) : option (str * str) :=
  match s with
  | [] => None
  | c :: r =>
      match rsplit_once r with
      | Some (a, b) => Some (c :: a, b)
      | None => if Nat.eqb c colon then Some ([], r) else None
      end
  end.

Definition ends_with (c : nat) (s : str) : bool := match rev s with x :: _ => Nat.eqb x c | [] => false end.

Section Resolve.
  (** [NamedNode::new]: is the string an IRI? *)
  Variable is_iri : str -> bool.

  (** iris.rs lines 82-96 *)
  Definition extend (iri s : str) : option str :=
    let e := if ends_with slash iri || ends_with hash_sign iri then iri ++ s else iri ++ slash :: s in
    if is_iri e then Some e else None.

  (** lines 560-578 *)
  Definition resolve_prefix_local (m : pmap) (prefix local : str) : option str :=
    match find prefix m with
    | Some iri => match local with [] => Some iri | _ => extend iri local end
    | None => None
    end.
  (** lines 509-514 *)
  Definition resolve (m : pmap) (s : str) : option str :=
    match rsplit_once s with
    | Some (prefix, local) => resolve_prefix_local m prefix local
    | None => if is_iri s then Some s else None
    end.
End Resolve.

(** lines 32-36: [IndexMap] equality ignores the order *)
Definition pmap_eqb (m m' : pmap) : bool :=
  Nat.eqb (length m) (length m') &&
  forallb (fun ai : str * str => match find (fst ai) m' with Some i => str_eqb (snd ai) i | None => false end) m.

(** lines 38-52: what is fed to the hasher, the entries sorted by alias *)
Fixpoint str_leb (a b : str) : bool :=
  match a, b with
  | [], _ => true
  | _ :: _, [] => false
  | x :: a, y :: b => Nat.ltb x y || (Nat.eqb x y && str_leb a b)
  end.
Fixpoint insert_sorted (e : str * str) (l : pmap) : pmap :=
  match l with
  | [] => [e]
  | f :: r => if str_leb (fst e) (fst f) then e :: l else f :: insert_sorted e r
  end.
Definition hash_input (m : pmap) : pmap := fold_right insert_sorted [] m.

(** the operations of the interface *)
Inductive op := Add (a i : str) | Remove (a : str) | Merge (other : pmap).
Definition apply (m : pmap) (o : op) : pmap :=
  match o with
  | Add a i => add_prefix a i m
  | Remove a => remove_prefix a m
  | Merge other => merge m other
  end.
Definition run (ops : list op) : pmap := fold_left apply ops [].
