(* What generating data from SHACL shapes should do.  Of the model only the types are used. *)
From Coq Require Import List String Bool ZArith QArith.
Import ListNotations.
From Verif Require Import SjModel CoModel GenModel GenSpec ShgModel.
Open Scope string_scope.

Section Spec.
Context {L : lib} {G : glib}.
Variable ts : list triple.

(* The nodes at the end of a path. *)
Inductive along : path -> term -> term -> Prop :=
| Al_pred p n o : arc ts n p o -> along (PPred p) n o
| Al_alt p ps n o : In p ps -> along p n o -> along (PAlt ps) n o
| Al_seq_nil n : along (PSeq []) n n
| Al_seq p ps n m o : along p n m -> along (PSeq ps) m o -> along (PSeq (p :: ps)) n o
| Al_inv p n o : along p o n -> along (PInv p) n o
| Al_star_nil p n : along (PStar p) n n
| Al_star p n m o : along p n m -> along (PStar p) m o -> along (PStar p) n o
| Al_plus p n m o : along p n m -> along (PStar p) m o -> along (PPlus p) n o
| Al_opt_nil p n : along (POpt p) n n
| Al_opt p n o : along p n o -> along (POpt p) n o.

(* The values do what a component asks for.  Only the components that easy schemas use are spelt out. *)
Variable other : component -> (term -> Prop) -> Prop.
Definition literal_kind (k : ukind) : Prop := k = UKLiteral \/ k = UKBNodeOrLiteral \/ k = UKIriOrLiteral.
Definition iri_kind (k : ukind) : Prop := k = UKIri \/ k = UKBNodeOrIri \/ k = UKIriOrLiteral.
Definition reads (l : lit) (z : Z) : Prop := parse_i64 (l_lex l) = Some z.
Definition compared (r : Z -> Z -> Prop) (l : lit) (o : term) : Prop := exists s d z b, o = TmLit s d /\ denotes s z /\ reads l b /\ r b z.
Definition holds (c : component) (V : term -> Prop) : Prop :=
  match c with
  | KMinCount z => exists l, NoDup l /\ (forall o, In o l -> V o) /\ (z <= Z.of_nat (List.length l))%Z
  | KMaxCount z => forall l, NoDup l -> (forall o, In o l -> V o) -> (Z.of_nat (List.length l) <= z)%Z
  | KDatatype d => forall o, V o -> exists s, o = TmLit s d
  | KNodeKind k => forall o, V o -> match o with TmIri _ => iri_kind k | TmLit _ _ => literal_kind k end
  | KMinIn l => forall o, V o -> compared Z.le l o
  | KMinEx l => forall o, V o -> compared Z.lt l o
  | KMaxIn l => forall o, V o -> compared Z.ge l o
  | KMaxEx l => forall o, V o -> compared Z.gt l o
  | c => other c V
  end.

Variable sch : schema.
Definition declared (n : name) (s : shape) : Prop := In (n, s) sch.
Definition has_property (s : node_shape) (ps : prop_shape) : Prop := exists n, In n (ns_props s) /\ declared n (SPropShape ps).
Definition satisfied (s : node_shape) (n : term) : Prop :=
  (forall ps c, has_property s ps -> In c (ps_comps ps) -> holds c (along (ps_path ps) n)) /\
  forall c, In c (ns_comps s) -> holds c (eq n).
Definition focus (s : node_shape) (n : term) : Prop :=
  (exists c, (In (TgClass c) (ns_targets s) \/ In (TgImplicit c) (ns_targets s)) /\ arc ts n the_type (TmIri c)) \/
  (exists i, In (TgNode i) (ns_targets s) /\ n = TmIri i) \/
  (exists p o, In (TgSubjectsOf p) (ns_targets s) /\ arc ts n p o) \/
  (exists p m, In (TgObjectsOf p) (ns_targets s) /\ arc ts m p n).
(* The data conform. *)
Definition conforming : Prop := forall k s n, declared k (SNodeShape s) -> focus s n -> satisfied s n.
End Spec.

Section Easy.
Context {L : lib} {G : glib}.

(* ------------------------------------------------------------------ *)
(* Shapes for which the data are as they should be                      *)

Definition lower_bound (c : component) (b : Z) : Prop :=
  (exists l, c = KMinIn l /\ reads l b) \/ exists l z, c = KMinEx l /\ reads l z /\ b = (z + 1)%Z.
Definition upper_bound (c : component) (b : Z) : Prop :=
  (exists l, c = KMaxIn l /\ reads l b) \/ exists l z, c = KMaxEx l /\ reads l z /\ b = (z - 1)%Z.
Definition bounds_below (c : component) : Prop := exists l, c = KMinIn l \/ c = KMinEx l.
Definition bounds_above (c : component) : Prop := exists l, c = KMaxIn l \/ c = KMaxEx l.

(* The datatype is known, and there are bounds for integers only, which leave something. *)
Definition easy_values (cs : list component) : Prop :=
  exists d, In (KDatatype d) cs /\ In d known_datatypes /\
    (forall c, In c cs -> c = KDatatype d \/ (exists k, c = KNodeKind k /\ literal_kind k) \/ (exists z, c = KMinCount z \/ c = KMaxCount z) \/
       d = "http://www.w3.org/2001/XMLSchema#integer" /\ (bounds_below c \/ bounds_above c)) /\
    exists lo hi, (lo <= hi)%Z /\ small lo /\ small hi /\
      (forall c, In c cs -> bounds_below c -> lower_bound c lo) /\ (lo = (-1000)%Z \/ exists c, In c cs /\ bounds_below c) /\
      (forall c, In c cs -> bounds_above c -> upper_bound c hi) /\ (hi = 10000%Z \/ exists c, In c cs /\ bounds_above c).
(* At most one value is asked for, and one is allowed if nothing is said about the least number. *)
Definition the_count (what : Z -> component) (cs : list component) (z : option Z) : Prop :=
  match z with Some z => In (what z) cs /\ forall y, In (what y) cs -> y = z | None => forall y, ~ In (what y) cs end.
Definition easy_counts (cs : list component) : Prop :=
  exists mn mx, the_count KMinCount cs mn /\ the_count KMaxCount cs mx /\
    let m := match mn with Some m => m | None => 1%Z end in
    (0 <= m <= 1)%Z /\ match mx with Some k => (m <= k < 2 ^ 31)%Z | None => True end.
Definition easy_property_shape (ps : prop_shape) : Prop :=
  (exists p, ps_path ps = PPred p /\ p <> the_type) /\ easy_values (ps_comps ps) /\ easy_counts (ps_comps ps).

(* The properties that a shape refers to are declared, and have different paths. *)
Inductive properties_of (sch : schema) : list name -> list prop_shape -> Prop :=
| Po_nil : properties_of sch [] []
| Po_cons n ns ps pss : In (n, SPropShape ps) sch -> properties_of sch ns pss -> properties_of sch (n :: ns) (ps :: pss).
Definition easy_node_shape (sch : schema) (s : node_shape) : Prop :=
  (exists i, ns_id s = NmIri i /\ iri_ok i = true) /\ ns_comps s = [] /\
  exists pss, properties_of sch (ns_props s) pss /\ NoDup (List.map ps_path pss) /\ Forall easy_property_shape pss.
(* Names are different; a shape has its own name. *)
Definition easy_shapes_graph (sch : schema) : Prop :=
  NoDup (List.map fst sch) /\
  forall n s, In (n, SNodeShape s) sch -> ns_id s = n /\ easy_node_shape sch s.
(* Targets are classes: the shape itself, or what is no shape. *)
Definition own_targets (sch : schema) : Prop :=
  forall n s t, In (n, SNodeShape s) sch -> In t (ns_targets s) ->
    exists c, (t = TgClass c \/ t = TgImplicit c) /\ (n = NmIri c \/ forall s', ~ In (NmIri c, SNodeShape s') sch).

(* Of every shape there are as many entities as it is allotted, and no others, and all of them satisfy it. *)
Definition good_shapes (other : component -> (term -> Prop) -> Prop) (cfg : config) (sch : schema) (ts : list triple) : Prop :=
  exists f : string -> Z,
    (forall l, NoDup l -> (forall id, In id l <-> exists s, In (NmIri id, SNodeShape s) sch) -> allotted cfg l f) /\
    forall id s, In (NmIri id, SNodeShape s) sch -> (0 <= f id)%Z /\
      (forall n, arc ts (TmIri n) the_type (TmIri id) <-> exists k, (1 <= k <= f id)%Z /\ n = entity id k) /\
      forall k, (1 <= k <= f id)%Z -> satisfied ts other sch s (TmIri (entity id k)).

(* What of a property shape is counted as kept. *)
Definition converted (c : component) : Prop :=
  match c with KOther _ => False | KMinCount z | KMaxCount z => (0 <= z)%Z | _ => True end.
Definition is_min (c : component) : bool := match c with KMinCount _ => true | _ => false end.
Definition is_max (c : component) : bool := match c with KMaxCount _ => true | _ => false end.
Definition counts_once (cs : list component) : Prop := (List.length (filter is_min cs) <= 1)%nat /\ (List.length (filter is_max cs) <= 1)%nat.
Definition all_converted (sch : schema) : Prop :=
  forall k s n ps, In (k, SNodeShape s) sch -> In n (ns_props s) -> In (n, SPropShape ps) sch ->
    (forall c, In c (ps_comps ps) -> converted c) /\ counts_once (ps_comps ps).
End Easy.
