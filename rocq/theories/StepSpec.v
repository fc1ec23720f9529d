(** Specification of the combinatorial enumerations. *)

Require Import List Arith Permutation Sorted.
Import ListNotations.
From Verif Require Import StepModel.

(** lexicographic order *)
Inductive lex : list nat -> list nat -> Prop :=
| lex_head x y a b : x < y -> lex (x :: a) (y :: b)
| lex_tail x a b : lex a b -> lex (x :: a) (x :: b).

(** the weakly increasing arrangement *)
Definition ascending (a : list nat) : Prop := StronglySorted le a.

(** the arrays visited by calling [next_permutation] until it answers [false] *)
Inductive visits : list nat -> list (list nat) -> Prop :=
| visits_last a : next_permutation a = Last -> visits a [a]
| visits_next a b l : next_permutation a = Next b -> visits b l -> visits a (a :: l).

(** the vectors visited by calling [next_composition] until it answers [false] *)
Inductive comp_visits : list nat -> list (list nat) -> Prop :=
| comp_visits_last c : next_composition c = None -> comp_visits c [c]
| comp_visits_next c d l : next_composition c = Some d -> comp_visits d l -> comp_visits c (c :: l).

(** [a] sends each of [n] items to one of [k] buckets *)
Definition sends (n k : nat) (a : list nat) : Prop := length a = n /\ forall j, In j a -> j < k.

(** the items sent to bucket [j], in order *)
Fixpoint received {T} (items : list T) (a : list nat) (j : nat) : list T :=
  match items, a with
  | x :: items, i :: a => if i =? j then x :: received items a j else received items a j
  | _, _ => []
  end.
(** all buckets *)
Definition distribution {T} (items : list T) (k : nat) (a : list nat) : list (list T) :=
  map (received items a) (seq 0 k).

(** each bucket passes its filter *)
Definition respects {T} (predicates : list (list T -> bool)) (ps : list (list T)) : Prop :=
  Forall2 (fun (p : list T -> bool) s => p s = true) predicates ps.
