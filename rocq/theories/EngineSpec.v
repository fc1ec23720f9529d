(** What it means for a node to have a shape. *)
From Coq Require Import List Arith Bool.
Import ListNotations.
From Verif Require Import GraphModel GraphSpec RbeModel RbeSpec TableModel TableSpec EngineModel.

(** [T n l]: node [n] is taken to have shape [l] *)
Definition typing := nat -> nat -> bool.

(** the arcs at a node, outgoing and incoming *)
Definition neighbourhood (g : rdf) (n : nat) (arcs : list (nat * nat)) : Prop :=
  NoDup arcs /\
  forall k v, In (k, v) arcs <-> exists p, (k = direct p /\ In (n, p, v) g) \/ (k = inverse p /\ In (v, p, n) g).

(** the triple expression of a shape mentions a predicate *)
Definition mentioned (t : table) (k : nat) : Prop := exists c cd, component t c k cd.

Section Holds.
  Variable eval : nat -> nat -> bool.
  Variable external : nat -> nat -> bool.
  Variable g : rdf.

  (** an arc matches the triple constraint [c] *)
  Definition arc_matches (T : typing) (t : table) (kv : nat * nat) (c : nat) : Prop :=
    exists cd, component t c (fst kv) cd /\ satisfies eval cd (snd kv) /\
      forall v r, needs cd (snd kv) v r -> T v r = true.

  (** ShEx 2.1 section 5.5.2: the neighbourhood splits into arcs matched by the triple
      expression and a remainder; an outgoing arc of the remainder whose predicate is
      mentioned has an EXTRA predicate and matches no constraint; the other outgoing arcs
      of the remainder need an open shape *)
  Definition shape_holds (T : typing) (n : nat) (s : shape) : Prop :=
    exists matched rest cs,
      neighbourhood g n (matched ++ rest) /\
      Forall2 (arc_matches T (s_table s)) matched cs /\ lang (rs_rbe (t_rbe (s_table s))) (bag_of cs) /\
      forall k v, In (k, v) rest -> is_direct k = true ->
        (mentioned (s_table s) k -> In k (s_extra s) /\ ~ exists c, arc_matches T (s_table s) (k, v) c) /\
        (~ mentioned (s_table s) k -> s_closed s = false).

  (** the variant that the engine implements: incoming arcs over mentioned predicates are
      treated as outgoing ones, a value is left over only when none of the constraints on
      its predicate refers to a shape, and EXTRA predicates are allowed in closed shapes *)
  Definition shape_holds_variant (T : typing) (n : nat) (s : shape) : Prop :=
    exists matched rest cs,
      neighbourhood g n (matched ++ rest) /\
      Forall2 (arc_matches T (s_table s)) matched cs /\ lang (rs_rbe (t_rbe (s_table s))) (bag_of cs) /\
      forall k v, In (k, v) rest ->
        (mentioned (s_table s) k -> In k (s_extra s) /\
           forall c cd, component (s_table s) c k cd -> ~ satisfies eval cd v /\ forall v' r, ~ needs cd v v' r) /\
        (~ mentioned (s_table s) k -> is_direct k = true -> s_closed s = true -> In k (s_extra s)).

  (** the expression [e] of the label [l] holds of [n], given the typing; [sh] is the
      meaning of shapes *)
  Definition holds (sh : typing -> nat -> shape -> Prop) (T : typing) (n l : nat) (e : sexpr) : Prop :=
    match e with
    | EAnd es => forall i, In i es -> T n i = true
    | EOr es => exists i, In i es /\ T n i = true
    | ENot i => T n i = false
    | ENode c => satisfies eval c n
    | EShape s => sh T n s
    | EExternal => external n l = true
    | ERef i => T n i = true
    | EEmpty => True
    end.

  (** the greatest typing closed under the definitions of the schema *)
  Definition conforms (sh : typing -> nat -> shape -> Prop) (sch : schema) (n l : nat) : Prop :=
    exists T : typing, T n l = true /\
      forall m j, T m j = true -> exists e, find sch j = Some e /\ holds sh T m j e.

  (** a typing of the given nodes that gives each stratum of labels the greatest typing over
      the strata below *)
  Definition stratified (sh : typing -> nat -> shape -> Prop) (sch : schema) (nodes : list nat) (stratum : nat -> nat)
      (V : typing) : Prop :=
    forall n l, In n nodes ->
      (V n l = true <->
       exists T : typing, T n l = true /\ (forall m j, In m nodes -> stratum j < stratum l -> T m j = V m j) /\
         forall m j, In m nodes -> stratum j = stratum l -> T m j = true -> exists e, find sch j = Some e /\ holds sh T m j e).
End Holds.

(** the definition of [i] mentions the label [j], the second one under a negation *)
Definition label_uses (sch : schema) (i j : nat) : Prop :=
  exists e, find sch i = Some e /\
    match e with
    | EOr l | EAnd l => In j l
    | ENot i' | ERef i' => j = i'
    | EShape s => In j (s_extends s) \/ exists c k cd v v', component (s_table s) c k cd /\ needs cd v v' j
    | _ => False
    end.
Definition label_negates (sch : schema) (i j : nat) : Prop := find sch i = Some (ENot j).

(** the nodes of a graph *)
Definition covers (nodes : list nat) (g : rdf) : Prop := forall s p o, In (s, p, o) g -> In s nodes /\ In o nodes.
(** strata respect the use of labels *)
Definition strata (sch : schema) (stratum : nat -> nat) : Prop :=
  (forall i j, label_uses sch i j -> stratum j <= stratum i) /\ (forall i j, label_negates sch i j -> stratum j < stratum i).

(** no label depends on itself through a negation *)
Definition stratified_schema (sch : schema) : Prop := ~ cycle_through (label_uses sch) (label_negates sch).
Definition without_negation (sch : schema) : Prop := forall i j, ~ label_negates sch i j.

(** no inheritance *)
Definition no_inheritance (sch : schema) : Prop :=
  abstract sch = [] /\ inherit sch = [] /\ forall i s, find sch i = Some (EShape s) -> s_extends s = [].
(** every label that is used is defined *)
Definition defined (sch : schema) : Prop := forall i j, label_uses sch i j -> exists e, find sch j = Some e.

(** references are conditions of their own *)
Definition plain_shape (s : shape) : Prop :=
  forall c k cd, component (s_table s) c k cd -> match cd with CAnd _ => forall v v' r, ~ needs cd v v' r | _ => True end.
Definition plain (sch : schema) : Prop := forall i s, find sch i = Some (EShape s) -> plain_shape s.

(** shapes as the compiler makes them, with an expression on which the matcher is exact
    (C01, C03, C10) *)
Definition one_per_predicate (t : table) : Prop :=
  forall c c' k cd cd', component t c k cd -> component t c' k cd' -> c = c'.
Definition exact_shape (s : shape) : Prop :=
  table_for (s_table s) (rs_rbe (t_rbe (s_table s))) /\
  (one_per_predicate (s_table s) \/ ~ lang (rs_rbe (t_rbe (s_table s))) bzero) /\
  (forall k, In k (s_preds s) <-> mentioned (s_table s) k).
Definition exact (sch : schema) : Prop := forall i s, find sch i = Some (EShape s) -> exact_shape s.

(** shapes on which the two readings of the remainder are the same *)
Definition same_remainder (s : shape) : Prop :=
  (forall k, mentioned (s_table s) k -> is_direct k = true) /\
  (forall c k cd v v' r, component (s_table s) c k cd -> In k (s_extra s) -> ~ needs cd v v' r) /\
  (s_closed s = true -> forall k, In k (s_extra s) -> mentioned (s_table s) k).
