(** What it means for a node to have a shape with EXTENDS: the arcs of the node are shared
    out among the shape and the shapes that it inherits from. *)
From Coq Require Import List Arith Bool Permutation.
Import ListNotations.
From Verif Require Import GraphModel GraphSpec RbeModel RbeSpec TableModel TableSpec EngineModel EngineSpec.

Section Resolve.
  Variable sch : schema.

  (** following references from [i] leads to [j] *)
  Inductive stands_for : nat -> nat -> Prop :=
  | stands_here i : (forall j, find sch i <> Some (ERef j)) -> stands_for i i
  | stands_ref i j k : find sch i = Some (ERef j) -> stands_for j k -> stands_for i k.

  (** a shape that takes arcs can be reached *)
  Inductive bucketed : nat -> Prop :=
  | bucketed_shape i s : find sch i = Some (EShape s) -> bucketed i
  | bucketed_ref i j : find sch i = Some (ERef j) -> bucketed j -> bucketed i
  | bucketed_or i es e : find sch i = Some (EOr es) -> In e es -> bucketed e -> bucketed i
  | bucketed_and i es e : find sch i = Some (EAnd es) -> In e es -> bucketed e -> bucketed i.

  (** [resolves i B K]: one way to extend [i] takes the shapes [B], each with a share of
      the arcs, and the constraints [K], each over the arcs of some of the shapes. The
      shapes of a conjunction are those of its first conjunct that has any; the other
      conjuncts constrain the arcs of these shapes. *)
  Inductive resolves : nat -> list nat -> list (nat * list nat) -> Prop :=
  | res_ref i j B K : find sch i = Some (ERef j) -> resolves j B K -> resolves i B K
  | res_shape i s B K : find sch i = Some (EShape s) -> resolves_all (s_extends s) B K -> resolves i (i :: B) K
  | res_or i es e B K : find sch i = Some (EOr es) -> In e es -> resolves e B K -> resolves i B K
  | res_and i before e after cs B K :
      find sch i = Some (EAnd (before ++ e :: after)) -> (forall d, In d before -> ~ bucketed d) -> bucketed e ->
      Forall2 stands_for (before ++ after) cs -> resolves e B K ->
      resolves i B (K ++ map (fun c => (c, B)) cs)
  | res_and_none i es cs :
      find sch i = Some (EAnd es) -> (forall d, In d es -> ~ bucketed d) -> Forall2 stands_for es cs ->
      resolves i [] (map (fun c => (c, [])) cs)
  | res_node i c : find sch i = Some (ENode c) -> resolves i [] [(i, [])]
  | res_not i j : find sch i = Some (ENot j) -> resolves i [] [(i, [])]
  | res_external i : find sch i = Some EExternal -> resolves i [] [(i, [])]
  | res_empty i : find sch i = Some EEmpty -> resolves i [] []
  | res_undefined i : find sch i = None -> resolves i [] []
  with resolves_all : list nat -> list nat -> list (nat * list nat) -> Prop :=
  | res_nil : resolves_all [] [] []
  | res_cons p ps B K B' K' : resolves p B K -> resolves_all ps B' K' -> resolves_all (p :: ps) (B ++ B') (K ++ K').
End Resolve.

Section Share.
  Variable eval : nat -> nat -> bool.
  Variable external : nat -> nat -> bool.
  Variable sch : schema.
  Variable g : rdf.
  Variable T : typing.
  Variable n : nat.

  (** all arcs are matched by the triple expression *)
  Definition all_matched (t : table) (arcs : list (nat * nat)) : Prop :=
    exists cs, Forall2 (arc_matches eval T t) arcs cs /\ lang (rs_rbe (t_rbe t)) (bag_of cs).

  (** the arcs have the shape: [shape_holds] of some of the arcs of the node *)
  Definition arcs_conform (s : shape) (arcs : list (nat * nat)) : Prop :=
    exists matched rest, Permutation (matched ++ rest) arcs /\ all_matched (s_table s) matched /\
      forall k v, In (k, v) rest ->
        (mentioned (s_table s) k -> In k (s_extra s) /\
           forall c cd, component (s_table s) c k cd -> ~ satisfies eval cd v /\ forall v' r, ~ needs cd v v' r) /\
        (~ mentioned (s_table s) k -> is_direct k = true -> s_closed s = true -> In k (s_extra s)).

  (** the node, with all its arcs, satisfies or does not satisfy the expression *)
  Inductive whole : nat -> bool -> Prop :=
  | whole_node i c b : find sch i = Some (ENode c) -> (b = true <-> satisfies eval c n) -> whole i b
  | whole_shape i s b : find sch i = Some (EShape s) -> s_extends s = [] ->
      (b = true <-> shape_holds_variant eval g T n s) -> whole i b
  | whole_not i j b : find sch i = Some (ENot j) -> whole j b -> whole i (negb b)
  | whole_and i es : find sch i = Some (EAnd es) -> (forall e, In e es -> whole e true) -> whole i true
  | whole_and_not i es e : find sch i = Some (EAnd es) -> In e es -> whole e false -> whole i false
  | whole_or i es e : find sch i = Some (EOr es) -> In e es -> whole e true -> whole i true
  | whole_or_not i es : find sch i = Some (EOr es) -> (forall e, In e es -> whole e false) -> whole i false
  | whole_ref i j b : find sch i = Some (ERef j) -> whole j b -> whole i b
  | whole_external i b : find sch i = Some EExternal -> (b = true <-> external n i = true) -> whole i b
  | whole_empty i : find sch i = Some EEmpty -> whole i true.

  (** a constraint over some arcs of the node: shapes are judged on these arcs, negations
      and disjunctions on the node *)
  Inductive constraint_holds (arcs : list (nat * nat)) : nat -> Prop :=
  | con_node i c : find sch i = Some (ENode c) -> satisfies eval c n -> constraint_holds arcs i
  | con_shape i s : find sch i = Some (EShape s) -> s_extends s = [] -> arcs_conform s arcs -> constraint_holds arcs i
  | con_ref i j : find sch i = Some (ERef j) -> constraint_holds arcs j -> constraint_holds arcs i
  | con_and i es : find sch i = Some (EAnd es) -> (forall e, In e es -> constraint_holds arcs e) -> constraint_holds arcs i
  | con_not i j : find sch i = Some (ENot j) -> whole i true -> constraint_holds arcs i
  | con_or i es : find sch i = Some (EOr es) -> whole i true -> constraint_holds arcs i
  | con_external i : find sch i = Some EExternal -> whole i true -> constraint_holds arcs i
  | con_empty i : find sch i = Some EEmpty -> constraint_holds arcs i.

  (** the table of a label that is a shape *)
  Definition takes (b : nat) (t : table) : Prop := exists s, find sch b = Some (EShape s) /\ s_table s = t.
  (** a predicate mentioned by the shape itself or by a shape that it inherits from *)
  Definition some_mention (s : shape) (B : list nat) (k : nat) : Prop :=
    mentioned (s_table s) k \/ exists b t, In b B /\ takes b t /\ mentioned t k.
  (** no triple constraint of the shape or of what it inherits is about the arc *)
  Definition matched_by_none (s : shape) (B : list nat) (k v : nat) : Prop :=
    forall t c cd, t = s_table s \/ (exists b, In b B /\ takes b t) -> component t c k cd ->
      ~ satisfies eval cd v /\ forall v' r, ~ needs cd v v' r.

  Definition shares (part : nat -> list (nat * nat)) (B : list nat) : list (nat * nat) :=
    flat_map part (nodup Nat.eq_dec B).

  (** the arcs of the node are shared out: the shape itself and each shape of [B], taken
      once, match their shares; an arc left over is EXTRA and matches nothing, or has a
      predicate that nobody mentions, which a closed shape forbids; each constraint holds
      of the shares it is about *)
  Definition shared_out (s : shape) (B : list nat) (K : list (nat * list nat)) : Prop :=
    exists own part rest,
      neighbourhood g n (own ++ shares part B ++ rest) /\
      all_matched (s_table s) own /\
      (forall b t, In b B -> takes b t -> all_matched t (part b)) /\
      (forall k v, In (k, v) rest ->
         (some_mention s B k -> In k (s_extra s) /\ matched_by_none s B k v) /\
         (~ some_mention s B k -> is_direct k = true -> s_closed s = true -> In k (s_extra s))) /\
      (forall c S, In (c, S) K -> constraint_holds (shares part S) c).

  (** the node has the shape with its parents *)
  Definition extends_holds (s : shape) : Prop :=
    exists B K, resolves_all sch (s_extends s) B K /\ shared_out s B K.
End Share.

(** ** schemas *)

(** the parts of a declaration *)
Definition refers (sch : schema) (i j : nat) : Prop :=
  exists e, find sch i = Some e /\
    match e with
    | EOr l | EAnd l => In j l
    | ENot i' | ERef i' => j = i'
    | EShape s => In j (s_extends s)
    | _ => False
    end.
(** declarations do not contain themselves *)
Definition grounded (sch : schema) (rank : nat -> nat) : Prop := forall i j, refers sch i j -> rank j < rank i.
Definition ors_nonempty (sch : schema) : Prop := forall i, find sch i <> Some (EOr []).

(** constraints made of node constraints and of shapes without EXTRA that mention every
    predicate of [P] *)
Inductive tight (sch : schema) (P : nat -> Prop) : nat -> Prop :=
| tight_node i c : find sch i = Some (ENode c) -> tight sch P i
| tight_shape i s : find sch i = Some (EShape s) -> s_extends s = [] -> exact_shape s -> s_extra s = [] ->
    (forall k, P k -> mentioned (s_table s) k) -> tight sch P i
| tight_ref i j : find sch i = Some (ERef j) -> tight sch P j -> tight sch P i
| tight_and i es : find sch i = Some (EAnd es) -> (forall e, In e es -> tight sch P e) -> tight sch P i.

(** expressions without EXTENDS *)
Inductive flat (sch : schema) : nat -> Prop :=
| flat_node i c : find sch i = Some (ENode c) -> flat sch i
| flat_shape i s : find sch i = Some (EShape s) -> s_extends s = [] -> exact_shape s -> flat sch i
| flat_not i j : find sch i = Some (ENot j) -> flat sch j -> flat sch i
| flat_and i es : find sch i = Some (EAnd es) -> (forall e, In e es -> flat sch e) -> flat sch i
| flat_or i es : find sch i = Some (EOr es) -> (forall e, In e es -> flat sch e) -> flat sch i
| flat_ref i j : find sch i = Some (ERef j) -> flat sch j -> flat sch i
| flat_external i : find sch i = Some EExternal -> flat sch i
| flat_empty i : find sch i = Some EEmpty -> flat sch i.
Definition judged_whole (sch : schema) (i : nat) : Prop :=
  flat sch i /\ ((exists j, find sch i = Some (ENot j)) \/ (exists es, find sch i = Some (EOr es)) \/
                 find sch i = Some EExternal \/ find sch i = Some EEmpty).

(** a constraint over the shares of [S] that the check reads as it is meant *)
Definition readable (sch : schema) (S : list nat) (c : nat) : Prop :=
  judged_whole sch c \/
  tight sch (fun k => exists b t, In b S /\ takes sch b t /\ mentioned t k) c.

(** the extended shape: the shapes it inherits from are exact, its constraints are
    readable, and a constraint has one scope *)
Definition well_extended (sch : schema) (s : shape) : Prop :=
  exact_shape s /\
  forall B K, resolves_all sch (s_extends s) B K ->
    (forall b t, In b B -> find sch b = Some (EShape t) -> exact_shape t) /\
    (forall c S, In (c, S) K -> readable sch S c) /\
    (forall c S S', In (c, S) K -> In (c, S') K -> forall b, In b S <-> In b S').

(** the label can be extended in ways that take different shapes *)
Definition two_ways (sch : schema) (p : nat) : Prop :=
  exists B K B' K', resolves sch p B K /\ resolves sch p B' K' /\ exists b, In b B /\ ~ In b B'.

(** ** parents that are shapes *)
Inductive plain_line (sch : schema) : nat -> Prop :=
| plain_line_intro i s : find sch i = Some (EShape s) -> (forall p, In p (s_extends s) -> plain_line sch p) -> plain_line sch i.
Definition line_edge (sch : schema) (i j : nat) : Prop := exists s, find sch i = Some (EShape s) /\ In j (s_extends s).
(** the inheritance graph is that of the shapes *)
Definition inherit_ok (sch : schema) : Prop := forall i j, edge (inherit sch) i j <-> line_edge sch i j.
(** [l] is a shape whose ancestors are shapes, all exact *)
Definition plainly_extended (sch : schema) (l : nat) (s : shape) : Prop :=
  find sch l = Some (EShape s) /\ plain_line sch l /\
  forall j t, reach (line_edge sch) l j -> find sch j = Some (EShape t) -> exact_shape t.
(** two shapes of the line mention no predicate in common *)
Definition apart (sch : schema) (l : nat) : Prop :=
  forall i j s t k, reach (line_edge sch) l i -> reach (line_edge sch) l j -> find sch i = Some (EShape s) -> find sch j = Some (EShape t) ->
    mentioned (s_table s) k -> mentioned (s_table t) k -> i = j.
