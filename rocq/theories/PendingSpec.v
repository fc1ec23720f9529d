(** Specification of pending tables: a finite ternary relation over a finite
    binary one. *)

Require Import List.
Import ListNotations.
From Verif Require Import PendingModel.

(** the triples produced by iterating the table *)
Definition triple (p : pending) (v r k : nat) : Prop := In (v, r, k) (p_iter p).
(** the (value, reference) pairs produced by iterating the table *)
Definition pair (p : pending) (v r : nat) : Prop := exists ks, In (v, r, ks) (p_iter_vr p).

(** tables that can be obtained through the public operations *)
Inductive built : pending -> Prop :=
| built_empty : built p_empty
| built_insert p v r : built p -> built (p_insert v r p)
| built_key p v r k : built p -> built (p_insert_with_key v r k p)
| built_annotate p k : built p -> built (p_annotate k p)
| built_merge p q : built p -> built q -> built (p_merge p q)
| built_pop p v r k q : built p -> p_pop p = PopSome v r k q -> built q.

(** same contents *)
Definition same (p q : pending) : Prop :=
  (forall v r, pair p v r <-> pair q v r) /\ (forall v r k, triple p v r k <-> triple q v r k).

(** every pair is annotated with at least one key *)
Definition keyed (p : pending) : Prop := forall v r, pair p v r -> exists k, triple p v r k.

(** popping until the table is empty; [None] when a pop panics or the fuel runs out *)
Fixpoint drain (fuel : nat) (p : pending) : option (list (nat * nat * nat)) :=
  match fuel with
  | 0 => None
  | S fuel =>
      match p_pop p with
      | PopNone => Some []
      | PopPanic => None
      | PopSome v r k q => option_map (cons (v, r, k)) (drain fuel q)
      end
  end.
