(** Union in order of first occurrence. *)
From Coq Require Import List Arith Bool.
Import ListNotations.
From Verif Require Import ExtModel.

(** the list without the later repetitions *)
Fixpoint firsts (l : list nat) : list nat :=
  match l with
  | [] => []
  | x :: r => x :: filter (fun y => negb (Nat.eqb y x)) (firsts r)
  end.

(** everything that a list of constraints says about the scope of [x] *)
Definition scopes_of (x : nat) (l : list scoped) : list nat :=
  concat (map sc_scope (filter (fun c => Nat.eqb (sc_expr c) x) l)).

(** no repetition among the buckets, the constraints and inside each scope *)
Definition no_repeats (a : alternative) : Prop :=
  NoDup (a_buckets a) /\ NoDup (map sc_expr (a_constraints a)) /\
  forall c, In c (a_constraints a) -> NoDup (sc_scope c).

(** the alternatives that can be made with the public operations *)
Inductive made : alternative -> Prop :=
| made_default : made alt_default
| made_bucket i : made (with_bucket i)
| made_constraint i : made (with_constraint i)
| made_scoped a l : made a -> made (with_scoped_constraints a l)
| made_merge a b : made a -> made b -> made (merge a b).
