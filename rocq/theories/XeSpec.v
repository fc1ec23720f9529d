(** Typings of schemas with inheritance. *)
From Coq Require Import List Arith Bool Permutation.
Import ListNotations.
From Verif Require Import GraphModel GraphSpec RbeModel RbeSpec TableModel TableSpec ClassModel EngineModel EngineSpec XtdModel XtdSpec.

Section Typings.
  Variable eval : nat -> nat -> bool.
  Variable external : nat -> nat -> bool.
  Variable sch : schema.
  Variable g : rdf.

  (** the meaning of a shape, with its parents if it has any *)
  Definition shape_meaning (T : typing) (n : nat) (s : shape) : Prop :=
    match s_extends s with
    | [] => shape_holds_variant eval g T n s
    | _ => extends_holds eval external sch g T n s
    end.
  (** [d] is below [l] *)
  Definition descendant (d l : nat) : Prop := d <> l /\ reach (edge (inherit sch)) d l.
  (** a node has a label by its own definition, unless the label is abstract, or through a
      label below it *)
  Definition has_label (T : typing) (n l : nat) : Prop :=
    (~ In l (abstract sch) /\ exists e, find sch l = Some e /\ holds eval external shape_meaning T n l e) \/
    exists d, descendant d l /\ T n d = true.

  (** the greatest typing *)
  Definition conforms_below (n l : nat) : Prop :=
    exists T : typing, T n l = true /\ forall m j, T m j = true -> has_label T m j.
  (** stratum by stratum *)
  Definition stratified_below (nodes : list nat) (stratum : nat -> nat) (V : typing) : Prop :=
    forall n l, In n nodes ->
      (V n l = true <->
       exists T : typing, T n l = true /\ (forall m j, In m nodes -> stratum j < stratum l -> T m j = V m j) /\
         forall m j, In m nodes -> stratum j = stratum l -> T m j = true -> has_label T m j).
End Typings.

(** a label may also be had through one below it *)
Definition strata_below (sch : schema) (stratum : nat -> nat) : Prop :=
  strata sch stratum /\ forall i j, edge (inherit sch) i j -> stratum i <= stratum j.

(** the conditions of C75 or C76 on the extended shape at [l] *)
Definition decided (sch : schema) (l : nat) (s : shape) : Prop :=
  (exists rank p, grounded sch rank /\ ors_nonempty sch /\ well_extended sch s /\ In p (s_extends s) /\ two_ways sch p) \/
  (inherit_ok sch /\ plainly_extended sch l s /\ apart sch l).
Definition all_decided (sch : schema) : Prop :=
  forall l s, find sch l = Some (EShape s) -> s_extends s <> [] -> decided sch l s.

(** [check] answers what the check of shapes with EXTENDS answers, given enough fuel *)
Definition answers eval external border corder (sch : schema) (g : rdf) (check : nat -> nat -> shape -> (nat -> bool) -> bool) : Prop :=
  forall l n s T, find sch l = Some (EShape s) -> s_extends s <> [] ->
    exists f, check_shape_extends eval external border corder sch g f l n s T = Some (check l n s T).

(** no label depends on itself through a negation; a label depends on those below it *)
Definition uses_below (sch : schema) (i j : nat) : Prop := label_uses sch i j \/ edge (inherit sch) j i.
Definition stratified_schema_below (sch : schema) : Prop := ~ cycle_through (uses_below sch) (label_negates sch).
(** what is inherited is not cyclic and is defined, and abstract labels have labels below *)
Definition sound_inheritance (sch : schema) : Prop :=
  (forall a, ~ on_cycle (edge (inherit sch)) a) /\
  (forall i j, edge (inherit sch) i j -> exists e, find sch i = Some e) /\
  (forall l, In l (abstract sch) -> exists d, descendant sch d l).
