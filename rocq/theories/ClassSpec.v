(** Specification of the class-based enumeration: genuine and accepted partitions. *)

Require Import List Arith.
Import ListNotations.
From Verif Require Import RbeModel RbeSpec TableModel TableSpec StepModel StepSpec ClassModel.

(** the items obtained by calling [next] until it answers [None] *)
Inductive collected (eval : nat -> nat -> bool) (buckets : list (list table)) (classes : list class)
  : state -> list (list (list (nat * nat))) -> Prop :=
| collected_end f s s' :
    cp_next eval buckets classes f s = Some (None, s') -> collected eval buckets classes s []
| collected_item f s s' x l :
    cp_next eval buckets classes f s = Some (Some x, s') -> collected eval buckets classes s' l ->
    collected eval buckets classes s (x :: l).

(** some expression of bucket [b] has a triple constraint on the predicate [k] *)
Definition mentions (buckets : list (list table)) (b k : nat) : Prop :=
  exists t c cd, In t (nth b buckets []) /\ component t c k cd.

(** every neighbour goes to a bucket that mentions its predicate *)
Definition sends_to_mentioning (buckets : list (list table)) (neighs : list (nat * nat)) (a : list nat) : Prop :=
  Forall2 (fun kv b => b < length buckets /\ mentions buckets b (fst kv)) neighs a.

(** the part can be matched: its neighbours can be assigned to triple constraints of the
    table so that the constraints used are in the language of the expression *)
Definition can_match (eval : nat -> nat -> bool) (t : table) (part : list (nat * nat)) : Prop :=
  exists e cs, t_rbe t = rs_from e /\ no_fail e /\ assignment eval t part cs /\ lang e (bag_of cs).
(** the matcher accepts the part *)
Definition matcher_accepts (eval : nat -> nat -> bool) (t : table) (part : list (nat * nat)) : Prop :=
  exists p, In (IOk p) (matches eval t part).

(** every expression of every bucket accepts what the bucket receives *)
Definition accepted (acc : table -> list (nat * nat) -> Prop) (buckets : list (list table))
    (neighs : list (nat * nat)) (a : list nat) : Prop :=
  forall b t, b < length buckets -> In t (nth b buckets []) -> acc t (received neighs a b).
