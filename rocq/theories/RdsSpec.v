(** What a shapes graph declares (SHACL sections 2 to 4 and appendix A), and which shapes graphs are well-formed. *)
From Coq Require Import List Bool NArith ZArith.
Import ListNotations.
From Verif Require Import PathModel PathSpec ShaclModel ShcModel ReportModel ReportSpec RdsModel.

Section Declared.
  Variable L : lits.
  Variable oc : other -> N.
  Variable pat : N -> option N -> N.
  Variable sev : option severity -> N.
  Variable g : graph.

  (** ** what terms stand for *)
  Definition is_object (t o : term) : Prop := match t with TLit n => exists m, l_key L n = Some m /\ o = TLit m | _ => o = t end.
  Definition is_value (t : term) (v : value) : Prop :=
    match t with TIri n => v = VIri (IriFull n) | TLit n => exists m, l_key L n = Some m /\ v = VLit m | TBnode _ => False end.
  Definition is_int (t : term) (z : Z) : Prop := match t with TLit n => l_int L n = Some z | _ => False end.
  Definition is_bool (t : term) (b : bool) : Prop := match t with TLit n => l_bool L n = Some b | _ => False end.
  Definition is_text (t : term) (x : N) : Prop := match t with TLit n => l_text L n = x | _ => False end.
  Definition is_literal (t : term) (x : N) : Prop := match t with TLit n => l_key L n = Some x | _ => False end.
  Definition is_tag (t : term) (x : N) : Prop := match t with TLit n => l_tag L n = Some x | _ => False end.
  Definition is_iri (t : term) (x : N) : Prop := t = TIri x.
  Definition is_kind (t : term) (x : N) : Prop := t = TIri x /\ In x node_kinds.
  Definition is_node (t o : term) : Prop := o = t /\ ~ literal t.
  (** the node has a value that stands for [x] *)
  Definition has {A} (R : term -> A -> Prop) (s : term) (p : N) (x : A) : Prop := exists o, In (s, p, o) g /\ R o x.
  (** the same for an optional value *)
  Definition may {A} (R : term -> A -> Prop) (s : term) (p : N) (x : option A) : Prop :=
    match x with Some x => has R s p x | None => none g s p end.
  (** the term is a list of terms that stand for these *)
  Definition is_list {A} (R : term -> A -> Prop) (t : term) (l : list A) : Prop := exists ts, rdf_list g t ts /\ Forall2 R ts l.

  (** SHACL 4.7.3: the siblings of a qualified value shape *)
  Definition sibling (s j : term) : Prop :=
    has is_bool s sh_qualified_disjoint true /\ ~ In (s, sh_qualified, j) g /\
    exists parent q, In (parent, sh_property, s) g /\ In (parent, sh_property, q) g /\ In (q, sh_qualified, j) g.

  (** ** the components, targets and so on of a shape *)
  Definition declared_other (s : term) (x : other) : Prop :=
    match x with
    | OKind k => has is_kind s sh_node_kind k
    | OMinLength z => has is_int s sh_min_length z
    | OMaxLength z => has is_int s sh_max_length z
    | OLanguages l => has (is_list is_tag) s sh_language_in l
    | ORange r n => has is_literal s (match r with MinInclusive => sh_min_inclusive | MinExclusive => sh_min_exclusive
                                                | MaxInclusive => sh_max_inclusive | MaxExclusive => sh_max_exclusive end) n
    end.
  Definition declared (s : term) (c : acomp) : Prop :=
    match c with
    | AClass t => has is_node s sh_class t
    | ADatatype (IriFull d) => has is_iri s sh_datatype d
    | APattern k => exists x f, has is_text s sh_pattern x /\ may is_text s sh_flags f /\ k = pat x f
    | AOther k => exists x, declared_other s x /\ k = oc x
    | AMinCount z => has is_int s sh_min_count z
    | AMaxCount z => has is_int s sh_max_count z
    | AUniqueLang b => has is_bool s sh_unique_lang b
    | AEquals (IriFull p) => has is_iri s sh_equals p
    | ADisjoint (IriFull p) => has is_iri s sh_disjoint p
    | ALess false (IriFull p) => has is_iri s sh_less_than p
    | ALess true (IriFull p) => has is_iri s sh_less_than_or_equals p
    | ADatatype _ | AEquals _ | ADisjoint _ | ALess _ _ => False
    | AOr l => has (is_list is_node) s sh_or l
    | AAnd l => has (is_list is_node) s sh_and l
    | AXone l => has (is_list is_node) s sh_xone l
    | ANot t => has is_node s sh_not t
    | ANode t => has is_node s sh_node t
    | AClosed b l => has is_bool s sh_closed b /\ (has (is_list is_iri) s sh_ignored l \/ none g s sh_ignored /\ l = [])
    | AHasValue v => has is_value s sh_has_value v
    | AIn l => has (is_list is_value) s sh_in l
    | AQualified t qmin qmax d sib =>
        has is_node s sh_qualified t /\ may is_int s sh_qualified_min qmin /\ may is_int s sh_qualified_max qmax /\
        may is_bool s sh_qualified_disjoint d /\ forall j, In j sib <-> sibling s j
    | ADeactivated b => has is_bool s sh_deactivated b
    end.
  (** siblings have no order *)
  Definition akin (c c' : acomp) : Prop :=
    c = c' \/ exists t qmin qmax d sib sib', c = AQualified t qmin qmax d sib /\ c' = AQualified t qmin qmax d sib' /\ forall j, In j sib <-> In j sib'.
  (** SHACL 2.1.3; the last is not in the vocabulary *)
  Definition declared_target (s : term) (x : target) : Prop :=
    match x with
    | TgNode t => has is_object s sh_target_node t
    | TgClass t => exists i, t = TIri i /\ has is_iri s sh_target_class i
    | TgSubjectsOf p => has is_iri s sh_target_subjects_of p
    | TgObjectsOf p => has is_iri s sh_target_objects_of p
    | TgImplicit t => t = s /\ In (s, rdf_type, TIri rdfs_class) g /\
        (In (s, rdf_type, TIri sh_node_shape) g \/ In (s, rdf_type, TIri sh_property_shape) g)
    | TgWrong _ => False
    end.
  Definition declared_severity (s : term) (k : N) : Prop :=
    none g s sh_severity /\ k = sev None \/
    exists x, In (s, sh_severity, TIri (iri_of_severity x)) g /\ plain_severity x /\ k = sev (Some x).
  Definition declared_reifier (s : term) (r : option (bool * list term)) : Prop :=
    match r with
    | None => none g s sh_reifier
    | Some (b, l) => l <> [] /\ (forall j, In j l <-> In (s, sh_reifier, j) g) /\ (b = true <-> has is_bool s sh_reification_required true)
    end.
  (** the shape that the graph has under the name [s] *)
  Record describes (s : term) (a : ashape) : Prop := {
    d_path : match a_path a with None => none g s sh_path | Some p => has (encodes g) s sh_path p end;
    d_sound : forall c, In c (a_comps a) -> declared s c;
    d_complete : forall c, declared s c -> exists c', In c' (a_comps a) /\ akin c c';
    d_props : forall j, In j (a_props a) <-> In (s, sh_property, j) g;
    d_targets : forall x, In x (a_targets a) <-> declared_target s x;
    d_severity : declared_severity s (a_severity a);
    d_reifier : match a_path a with None => a_reifier a = None | Some _ => declared_reifier s (a_reifier a) end }.

  (** ** which nodes are shapes (appendix A) *)
  Definition shape_classes : list N := [sh_node_shape; sh_property_shape; sh_shape].
  Definition target_predicates : list N := [sh_target_class; sh_target_node; sh_target_subjects_of; sh_target_objects_of].
  Definition expects_shape : list N := [sh_not; sh_node; sh_property; sh_qualified; sh_reifier].
  Definition expects_shapes : list N := [sh_and; sh_or; sh_xone].
  (** all but the rule about parameters *)
  Definition is_shape (t : term) : Prop :=
    (exists c, In c shape_classes /\ In (t, rdf_type, TIri c) g) \/
    (exists p o, In p target_predicates /\ In (t, p, o) g) \/
    (exists s p, In p expects_shape /\ In (s, p, t) g /\ ~ literal t) \/
    (exists s p o l, In p expects_shapes /\ In (s, p, o) g /\ rdf_list g o l /\ In t l).
  Definition parameters : list N :=
    [sh_class; sh_node_kind; sh_datatype; sh_min_count; sh_max_count; sh_min_inclusive; sh_min_exclusive; sh_max_inclusive; sh_max_exclusive;
     sh_min_length; sh_max_length; sh_pattern; sh_language_in; sh_unique_lang; sh_equals; sh_disjoint; sh_less_than; sh_less_than_or_equals;
     sh_not; sh_and; sh_or; sh_xone; sh_node; sh_property; sh_qualified; sh_closed; sh_has_value; sh_in].
  Definition is_shape_by_spec (t : term) : Prop := is_shape t \/ exists p o, In p parameters /\ In (t, p, o) g.

  (** ** well-formed shapes graphs (appendix B) *)
  Definition chained {A} (R : term -> A -> Prop) (t : term) : Prop := exists ts, chain g t ts /\ forall x, In x ts -> exists y, R x y.
  Definition some {A} (R : term -> A -> Prop) (t : term) : Prop := exists y, R t y.
  Definition kinds : list (N * (term -> Prop)) :=
    [(sh_class, some is_node); (sh_node_kind, some is_kind); (sh_datatype, some is_iri); (sh_min_count, some is_int); (sh_max_count, some is_int);
     (sh_min_inclusive, some is_literal); (sh_min_exclusive, some is_literal); (sh_max_inclusive, some is_literal); (sh_max_exclusive, some is_literal);
     (sh_min_length, some is_int); (sh_max_length, some is_int); (sh_pattern, some is_text); (sh_flags, some is_text);
     (sh_language_in, chained is_tag); (sh_unique_lang, some is_bool); (sh_equals, some is_iri); (sh_disjoint, some is_iri);
     (sh_less_than, some is_iri); (sh_less_than_or_equals, some is_iri); (sh_not, some is_node); (sh_and, chained is_node); (sh_or, chained is_node);
     (sh_xone, chained is_node); (sh_node, some is_node); (sh_property, some is_node); (sh_qualified, some is_node); (sh_qualified_min, some is_int);
     (sh_qualified_max, some is_int); (sh_qualified_disjoint, some is_bool); (sh_closed, some is_bool); (sh_ignored, chained is_iri);
     (sh_has_value, some is_value); (sh_in, chained is_value); (sh_deactivated, some is_bool); (sh_reifier, some is_node);
     (sh_reification_required, some is_bool); (sh_target_class, some is_iri); (sh_target_node, some is_object); (sh_target_subjects_of, some is_iri);
     (sh_target_objects_of, some is_iri); (sh_severity, some is_iri); (sh_path, some (spells g))].
  Definition singles : list N :=
    [sh_path; sh_pattern; sh_flags; sh_closed; sh_ignored; sh_severity; sh_qualified_min; sh_qualified_max; sh_qualified_disjoint; sh_reification_required].
  Record well_formed : Prop := {
    wf_graph : rdf_graph g;
    wf_nil : none g (TIri rdf_nil) rdf_first;
    wf_kinds : forall s p o K, In (s, p, o) g -> In (p, K) kinds -> K o;
    wf_singles : forall s p o o', In p singles -> In (s, p, o) g -> In (s, p, o') g -> o = o' }.
  (** what the parser reads after sh:ignoredProperties *)
  Definition read_late : list N := [sh_has_value; sh_in; sh_deactivated].
  Definition ignored_alone : Prop :=
    forall p o, In p read_late -> ~ In (TIri rdf_nil, p, o) g /\ forall s o', In (s, sh_ignored, o) g -> ~ In (s, p, o') g.
End Declared.
(** a boolean literal converts to a boolean *)
Definition booleans (L : lits) : Prop :=
  (forall n b, l_bool L n = Some b -> exists m, l_key L n = Some m /\ l_boolean L m = Some b).

(** ** shapes graphs that validation can use (C73) *)
(** a syntax tree has just the shapes of the graph, as the graph describes them *)
Definition spelled_out (L : lits) (oc : other -> N) (pat : N -> option N -> N) (sev : option severity -> N) (g : graph) (A : ast) : Prop :=
  NoDup (map fst A) /\ (forall t, In t (map fst A) <-> is_shape g t) /\ forall t a, In (t, a) A -> describes L oc pat sev g t a.
(** [j] is needed to decide conformance to [s] *)
Definition needs_shape (L : lits) (g : graph) (s j : term) : Prop :=
  (exists p, In p expects_shape /\ In (s, p, j) g) \/
  (exists p o l, In p expects_shapes /\ In (s, p, o) g /\ rdf_list g o l /\ In j l) \/
  sibling L g s j.
Record usable (L : lits) (pat : N -> option N -> N) (regex : N -> bool) (rank : term -> nat) (g : graph) : Prop := {
  u_ranks : forall s j, needs_shape L g s j -> rank j < rank s;
  u_property : forall s j, In (s, sh_property, j) g -> exists t, In (j, sh_path, t) g;
  u_regex : forall s x f, has g (is_text L) s sh_pattern x -> may g (is_text L) s sh_flags f -> regex (pat x f) = true;
  u_counts : forall s z, has g (is_int L) s sh_min_count z \/ has g (is_int L) s sh_max_count z -> (0 <= z < 2 ^ 63)%Z;
  u_reifier : forall s j, In (s, sh_reifier, j) g -> forall p, has g (encodes g) s sh_path p -> exists n, p = PPred n }.
