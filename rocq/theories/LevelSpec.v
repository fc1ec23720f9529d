(** What the schedule of SHACL shapes should be (C30, C51). *)
From Coq Require Import List Arith Bool.
Import ListNotations.
From Verif Require Import GraphModel GraphSpec LevelModel.

(** the shapes a component refers to, without and with the siblings of a qualified shape *)
Definition comp_refers (c : comp) (i : nat) : Prop :=
  match c with
  | COr l | CAnd l | CXone l => In i l
  | CNot j | CNode j | CQualified j _ => i = j
  | CValue => False
  end.
Definition comp_uses (c : comp) (i : nat) : Prop :=
  comp_refers c i \/ match c with CQualified _ sib => In i sib | _ => False end.

Definition refers (sch : schema) (a b : nat) : Prop :=
  exists s, In (a, s) sch /\ ((exists c, In c (comps s) /\ comp_refers c b) \/ In b (props s)).
(** every shape that is evaluated for [a] *)
Definition uses (sch : schema) (a b : nat) : Prop :=
  exists s, In (a, s) sch /\ ((exists c, In c (comps s) /\ comp_uses c b) \/ In b (props s) \/ In b (reifiers s)).

Definition recursive (R : nat -> nat -> Prop) : Prop := exists a, on_cycle R a.
(** directly or indirectly *)
Definition depends (R : nat -> nat -> Prop) (a b : nat) : Prop := exists c, R a c /\ reach R c b.

(** indices are distinct and every shape referred to exists *)
Definition wf (sch : schema) : Prop := NoDup (map fst sch) /\ forall a b, uses sch a b -> In b (map fst sch).

Definition with_targets (sch : schema) (i : nat) : Prop := exists s, In (i, s) sch /\ targeted s = true.

(** [x] is in the [n]th level *)
Definition at_level (ls : list (list nat)) (n x : nat) : Prop := exists l, nth_error ls n = Some l /\ In x l.

(** a schedule: the shapes with targets, each once, and after those it depends on *)
Definition good_schedule (sch : schema) (R : nat -> nat -> Prop) (ls : list (list nat)) : Prop :=
  NoDup (concat ls) /\ (forall x, In x (concat ls) <-> with_targets sch x) /\
  forall a b n m, depends R a b -> at_level ls n a -> at_level ls m b -> m < n.

(** a number of steps that is enough *)
Definition enough (sch : schema) : nat := S (S (length sch)).

(** negation occurs on a cycle: some shape negates a shape that leads back to it *)
Definition negates (sch : schema) (a b : nat) : Prop := exists s, In (a, s) sch /\ In (CNot b) (comps s).
Definition negative_recursion (sch : schema) : Prop := exists a b, negates sch a b /\ reach (refers sch) b a.

(** the cycles listed: every shape on a cycle is in one of them, and only those *)
Definition lists_cycles (R : nat -> nat -> Prop) (cs : list (list nat)) : Prop := forall a, on_cycle R a <-> In a (concat cs).
