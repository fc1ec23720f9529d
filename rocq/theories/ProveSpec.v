(** Typings, and which of them are the meaning of a set of recursive shapes. *)
From Coq Require Import List Arith Bool Permutation.
Import ListNotations.

Section Spec.
  Variable dep : nat -> list nat.
  Variable is_abstract : nat -> bool.
  Variable desc : nat -> list nat.
  Variable check : nat -> (nat -> bool) -> bool.

  (** the pair [k] is justified by the typing [T]: its own shape expression holds, unless
      it is abstract, or it has a descendant in the typing *)
  Definition justified (T : nat -> bool) (k : nat) : Prop :=
    (is_abstract k = false /\ check k T = true) \/ exists d, In d (desc k) /\ T d = true.

  (** the greatest typing all of whose pairs are justified by it *)
  Definition conformant (k : nat) : Prop :=
    exists T, T k = true /\ forall j, T j = true -> justified T j.

  (** the same stratum by stratum: [V] is the typing whose pairs in a stratum are those
      of the greatest typing that agrees with [V] on the strata below and is justified *)
  Definition stratified_typing (all : list nat) (stratum : nat -> nat) (V : nat -> bool) : Prop :=
    forall k, In k all ->
      (V k = true <->
       exists T, T k = true /\ (forall i, In i all -> stratum i < stratum k -> T i = V i) /\
                 forall j, In j all -> stratum j = stratum k -> T j = true -> justified T j).

  (** [k] needs [j] *)
  Definition needs (k j : nat) : Prop := In j (dep k) \/ In j (desc k).
  (** a finite set of pairs closed under dependencies *)
  Definition closed (all : list nat) : Prop := forall k j, In k all -> needs k j -> In j all.

  (** the verdict of the expression of [k] depends on the typing only through its
      dependencies *)
  Definition local : Prop := forall k T T', (forall j, In j (dep k) -> T j = T' j) -> check k T = check k T'.

  (** the verdict can only improve when dependencies that are not negated are added *)
  Definition monotone_but (negated : nat -> nat -> Prop) : Prop :=
    forall k T T', (forall j, In j (dep k) -> T j = T' j \/ ~ negated k j /\ (T j = true -> T' j = true)) ->
    check k T = true -> check k T' = true.

  (** no pair needs itself through a negation *)
  Definition stratifies (all : list nat) (negated : nat -> nat -> Prop) (stratum : nat -> nat) : Prop :=
    (forall k j, In k all -> needs k j -> stratum j <= stratum k) /\
    (forall k j, In k all -> In j (dep k) -> negated k j -> stratum j < stratum k).

  (** inheritance is not cyclic *)
  Definition descends (all : list nat) (rank : nat -> nat) : Prop :=
    forall k d, In k all -> In d (desc k) -> rank d < rank k.
End Spec.

(** The verdict for [k] while the pairs of [hyp] are taken for granted, by its definition:
    [k] too is taken for granted, what is taken for granted holds, and every other
    dependency has the verdict it deserves. Nothing is remembered. Without inheritance. *)
Inductive verdict_given (dep : nat -> list nat) (check : nat -> (nat -> bool) -> bool) : list nat -> nat -> bool -> Prop :=
| verdict_given_intro hyp k T :
    (forall j, In j (dep k) -> In j (k :: hyp) -> T j = true) ->
    (forall j, In j (dep k) -> ~ In j (k :: hyp) -> verdict_given dep check (k :: hyp) j (T j)) ->
    verdict_given dep check hyp k (check k T).

(** an order of iteration only permutes *)
Definition orders (ord : nat -> list nat -> list nat) : Prop := forall n l, Permutation (ord n l) l.
