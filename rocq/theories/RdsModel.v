(** Reading shapes from a shapes graph.

    shacl/src/rdf/parser.rs lines 20-206, shacl/src/rdf/parsers (all files but sparql), among them components.rs lines
    11-63, utils.rs lines 10-53, shape_type/node_shape.rs and property_shape.rs, other/closed.rs,
    shape_based/qualified_value_shape.rs, targets/implicit_class.rs; rudof_rdf/src/rdf_core/parser/rdf_node_parser:
    combinators.rs, utils.rs, constructors/property.rs; rdf_core/rdf.rs lines 317-329 (term_as_lang).

    As in ReportModel a parser has the focus of the store as state, which stays where it is when a parser fails; a set is
    walked in an unknown order [ord]. Simplifications. Literals are numbers, [lits] says what they convert to. Names,
    orders, groups, descriptions and messages are left out (their parsers neither fail nor move the focus), so are SPARQL
    constraints: the graph has no sh:sparql. The components that ShcModel only knows by a number are numbered by [oc] and
    [pat], severities by [sev]. A set of IRIs is walked like the set of terms it comes from. The result has for every node
    the id of the shape that was read for it. *)
From Coq Require Import List Bool NArith ZArith.
Import ListNotations.
From Verif Require Import PathModel ShaclModel ShcModel TgtModel ReportModel.

(** more IRIs, numbered after those of ReportModel *)
Definition sh_class : N := 30.
Definition sh_node_kind : N := 31.
Definition sh_datatype : N := 32.
Definition sh_min_count : N := 33.
Definition sh_max_count : N := 34.
Definition sh_min_inclusive : N := 35.
Definition sh_min_exclusive : N := 36.
Definition sh_max_inclusive : N := 37.
Definition sh_max_exclusive : N := 38.
Definition sh_min_length : N := 39.
Definition sh_max_length : N := 40.
Definition sh_pattern : N := 41.
Definition sh_flags : N := 42.
Definition sh_language_in : N := 43.
Definition sh_unique_lang : N := 44.
Definition sh_equals : N := 45.
Definition sh_disjoint : N := 46.
Definition sh_less_than : N := 47.
Definition sh_less_than_or_equals : N := 48.
Definition sh_not : N := 49.
Definition sh_and : N := 50.
Definition sh_or : N := 51.
Definition sh_xone : N := 52.
Definition sh_node : N := 53.
Definition sh_property : N := 54.
Definition sh_qualified : N := 55.
Definition sh_qualified_min : N := 56.
Definition sh_qualified_max : N := 57.
Definition sh_qualified_disjoint : N := 58.
Definition sh_closed : N := 59.
Definition sh_ignored : N := 60.
Definition sh_has_value : N := 61.
Definition sh_in : N := 62.
Definition sh_deactivated : N := 63.
Definition sh_reifier : N := 64.
Definition sh_reification_required : N := 65.
Definition sh_target_class : N := 66.
Definition sh_target_node : N := 67.
Definition sh_target_subjects_of : N := 68.
Definition sh_target_objects_of : N := 69.
Definition sh_node_shape : N := 70.
Definition sh_property_shape : N := 71.
Definition sh_shape : N := 72.
Definition rdfs_class : N := 73.
Definition sh_iri : N := 74.
Definition sh_literal : N := 75.
Definition sh_blank_node : N := 76.
Definition sh_blank_node_or_iri : N := 77.
Definition sh_blank_node_or_literal : N := 78.
Definition sh_iri_or_literal : N := 79.
Definition node_kinds : list N := [sh_iri; sh_literal; sh_blank_node; sh_blank_node_or_iri; sh_blank_node_or_literal; sh_iri_or_literal].

(** what literals convert to: the internal literal, an integer, a boolean (both by datatype and lexical form), the lexical
    form, and a language tag made of the lexical form; [l_boolean] tells which internal literals are booleans *)
Record lits := mkLits {
  l_key : N -> option N; l_int : N -> option Z; l_bool : N -> option bool; l_text : N -> N; l_tag : N -> option N;
  l_boolean : N -> option bool }.
(** components that ShcModel keeps as a number *)
Inductive range := MinInclusive | MinExclusive | MaxInclusive | MaxExclusive.
Inductive other := OKind (k : N) | OMinLength (z : Z) | OMaxLength (z : Z) | OLanguages (l : list N) | ORange (r : range) (n : N).

Section Read.
  Variable ord : list term -> list term.
  Variable L : lits.
  Variable oc : other -> N.
  Variable pat : N -> option N -> N.
  Variable sev : option severity -> N.
  Variable g : graph.
  Variable fuel : nat.
  Notation as_object := (as_object (l_key L)).

  (** combinators.rs: Optional *)
  Definition popt {A} (p : parser A) : parser (option A) := fun f =>
    match p f with
    | (Ok a, f) => (Ok (Some a), f)
    | (Err, f) => (Ok None, f)
    | (Panic, f) => (Panic, f)
    | (OutOfFuel, f) => (OutOfFuel, f)
    end.
  Definition pres {A} (r : res A) : parser A := fun f => (r, f).
  (** property.rs: ValuesPropertyParser *)
  Definition values (p : N) : parser (list term) := fun f => (Ok (match objects_for g f p with Ok l => ord l | _ => [] end), f).
  Fixpoint each {A B} (k : A -> res B) (l : list A) : res (list B) :=
    match l with [] => Ok [] | x :: l => bind (k x) (fun y => bind (each k l) (fun ys => Ok (y :: ys))) end.
  (** flat_map over results: errors are dropped *)
  Fixpoint keep {A B} (k : A -> res B) (l : list A) : res (list B) :=
    match l with
    | [] => Ok []
    | x :: l =>
        match k x with
        | Ok y => bind (keep k l) (fun ys => Ok (y :: ys))
        | Err => keep k l
        | Panic => Panic
        | OutOfFuel => OutOfFuel
        end
    end.
  Definition of_option {A} (o : option A) : res A := match o with Some a => Ok a | None => Err end.
  (** utils.rs: term_to_iri and so on *)
  Definition to_iri (t : term) : res N := match t with TIri n => Ok n | _ => Err end.
  Definition to_int (t : term) : res Z := match t with TLit n => of_option (l_int L n) | _ => Err end.
  Definition to_bool (t : term) : res bool := match t with TLit n => of_option (l_bool L n) | _ => Err end.
  Definition to_text (t : term) : res N := match t with TLit n => Ok (l_text L n) | _ => Err end.
  Definition to_lit (t : term) : res N := match t with TLit n => of_option (l_key L n) | _ => Err end.
  Definition to_obj (t : term) : res term := of_option (as_object t).
  Definition objects_prop (p : N) : parser (list term) := pbind (values p) (fun l => pres (each to_obj l)).
  Definition iris_prop (p : N) : parser (list N) := pbind (values p) (fun l => pres (each to_iri l)).
  Definition ints_prop (p : N) : parser (list Z) := pbind (values p) (fun l => pres (each to_int l)).
  Definition bools_prop (p : N) : parser (list bool) := pbind (values p) (fun l => pres (keep to_bool l)).
  Definition texts_prop (p : N) : parser (list N) := pbind (values p) (fun l => pres (each to_text l)).
  Definition lits_prop (p : N) : parser (list N) := pbind (values p) (fun l => pres (each to_lit l)).
  Definition single {A} (k : term -> res A) (p : N) : parser A := pbind (single_value ord g p) (fun t => pres (k t)).
  (** combinators.rs: MapPropertyValuesParser; the focus goes back only at the end *)
  Definition map_property {A} (p : N) (k : parser A) : parser (list A) :=
    pbind get_focus (fun saved =>
    pbind (values p) (fun l =>
    pbind (pmap (fun t => pbind (set_focus t) (fun _ => k)) l) (fun r =>
    pbind (set_focus saved) (fun _ => pret r)))).
  Definition pmapr {A B} (p : parser A) (k : A -> B) : parser B := pbind p (fun a => pret (k a)).
  Definition the_list : parser (list term) := list_parser ord g fuel.

  (** parsers/utils.rs: term_to_value *)
  Definition to_value (t : term) : res value :=
    match t with TBnode _ => Err | TIri n => Ok (VIri (IriFull n)) | TLit n => bind (of_option (l_key L n)) (fun m => Ok (VLit m)) end.
  (** rdf.rs: term_as_lang *)
  Definition to_lang (t : term) : res N :=
    match t with TBnode _ => Err | TIri _ => Panic | TLit n => match l_tag L n with Some k => Ok k | None => Panic end end.
  (** value_type/node_kind.rs *)
  Definition to_kind (t : term) : res N := match t with TIri n => if existsb (N.eqb n) node_kinds then Ok n else Err | _ => Err end.

  (** one function for each parser of components.rs *)
  Definition class : parser (list acomp) := pmapr (objects_prop sh_class) (map AClass).
  Definition node_kind : parser (list acomp) := pbind (values sh_node_kind) (fun l => pmapr (pres (keep to_kind l)) (map (fun k => AOther (oc (OKind k))))).
  Definition datatype : parser (list acomp) := pmapr (iris_prop sh_datatype) (map (fun d => ADatatype (IriFull d))).
  Definition count (p : N) (k : Z -> acomp) : parser (list acomp) := pmapr (ints_prop p) (map k).
  Definition in_range (p : N) (r : range) : parser (list acomp) := pmapr (lits_prop p) (map (fun n => AOther (oc (ORange r n)))).
  Definition pattern : parser (list acomp) :=
    pbind (popt (single to_text sh_flags)) (fun flags =>
    pbind (texts_prop sh_pattern) (fun l =>
    match l with [] => pret [] | [s] => pret [APattern (pat s flags)] | _ => pfail end)).
  Definition language_in : parser (list acomp) :=
    map_property sh_language_in (pbind the_list (fun l => pmapr (pres (keep to_lang l)) (fun l => AOther (oc (OLanguages l))))).
  Definition unique_lang : parser (list acomp) := pmapr (bools_prop sh_unique_lang) (map AUniqueLang).
  Definition pair (p : N) (k : iri_ref -> acomp) : parser (list acomp) := pmapr (iris_prop p) (map (fun n => k (IriFull n))).
  Definition one_shape (p : N) (k : term -> acomp) : parser (list acomp) :=
    map_property p (pbind get_focus (fun t => pmapr (pres (to_obj t)) k)).
  Definition shape_list (p : N) (k : list term -> acomp) : parser (list acomp) :=
    map_property p (pbind the_list (fun l => pmapr (pres (each to_obj l)) k)).
  (** shape_based/qualified_value_shape.rs *)
  Definition siblings : parser (list term) := fun f =>
    (bind (object_for ord g as_object f sh_qualified_disjoint) (fun d =>
     match match d with Some (TLit n) => l_boolean L n | _ => None end with
     | Some true =>
         bind (objects_for g f sh_qualified) (fun qvs =>
         match qvs with
         | [] => Ok []
         | _ =>
             bind (subjects_for g sh_property f) (fun ps =>
             bind (each (fun q => bind (objects_for_path ord g fuel (PSeq [PPred sh_property; PPred sh_qualified]) q) (fun cs =>
                                  each to_obj (filter (fun c => negb (tmem c qvs)) (ord cs)))) (ord ps)) (fun ls =>
             Ok (concat ls)))
         end)
     | _ => Ok []
     end), f).
  Definition qualified : parser (list acomp) :=
    pbind (objects_prop sh_qualified) (fun qvs =>
    pbind (popt (single to_bool sh_qualified_disjoint)) (fun d =>
    pbind (popt (single to_int sh_qualified_min)) (fun qmin =>
    pbind (popt (single to_int sh_qualified_max)) (fun qmax =>
    pbind siblings (fun sib =>
    pret (map (fun t => AQualified t qmin qmax d sib) (ord (tset qvs)))))))).
  (** other/closed.rs: the focus stays at the end of the list *)
  Definition ignored_properties : parser (list N) :=
    pbind (popt (pbind (single_value ord g sh_ignored) (fun t => pbind (set_focus t) (fun _ => the_list)))) (fun o =>
    match o with None => pret [] | Some l => pres (each to_iri l) end).
  Definition closed : parser (list acomp) :=
    pbind (popt (single to_bool sh_closed)) (fun o =>
    pmapr ignored_properties (fun is => match o with Some b => [AClosed b is] | None => [] end)).
  Definition has_value : parser (list acomp) := map_property sh_has_value (pbind get_focus (fun t => pmapr (pres (to_value t)) AHasValue)).
  Definition in_component : parser (list acomp) := map_property sh_in (pbind the_list (fun l => pmapr (pres (keep to_value l)) AIn)).
  Definition deactivated : parser (list acomp) := pmapr (bools_prop sh_deactivated) (map ADeactivated).

  (** combine_many *)
  Fixpoint pcat {A} (ps : list (parser (list A))) : parser (list A) :=
    match ps with [] => pret [] | p :: ps => pbind p (fun l => pbind (pcat ps) (fun l' => pret (l ++ l'))) end.
  (** components.rs lines 11-63 *)
  Definition before_closed : list (parser (list acomp)) :=
    [class; node_kind; datatype; count sh_min_count AMinCount; count sh_max_count AMaxCount;
     in_range sh_min_inclusive MinInclusive; in_range sh_min_exclusive MinExclusive; in_range sh_max_inclusive MaxInclusive; in_range sh_max_exclusive MaxExclusive;
     count sh_min_length (fun z => AOther (oc (OMinLength z))); count sh_max_length (fun z => AOther (oc (OMaxLength z)));
     pattern; language_in; unique_lang;
     pair sh_equals AEquals; pair sh_disjoint ADisjoint; pair sh_less_than (ALess false); pair sh_less_than_or_equals (ALess true);
     one_shape sh_not ANot; shape_list sh_and AAnd; shape_list sh_or AOr; shape_list sh_xone AXone; one_shape sh_node ANode; qualified].
  Definition after_closed : list (parser (list acomp)) := [has_value; in_component; deactivated].
  Definition components : parser (list acomp) := pcat (before_closed ++ [closed] ++ after_closed).

  (** targets *)
  Definition instances_of_class (c : N) : list term := match subjects_for g rdf_type (TIri c) with Ok l => l | _ => [] end.
  Definition implicit_class : parser (list target) := fun f =>
    (Ok (if tmem f (instances_of_class rdfs_class) && (tmem f (instances_of_class sh_property_shape) || tmem f (instances_of_class sh_node_shape))
         then [TgImplicit f] else []), f).
  Definition targets : parser (list target) :=
    pcat [pmapr (iris_prop sh_target_class) (map (fun n => TgClass (TIri n))); pmapr (objects_prop sh_target_node) (map TgNode); implicit_class;
          pmapr (iris_prop sh_target_subjects_of) (map TgSubjectsOf); pmapr (iris_prop sh_target_objects_of) (map TgObjectsOf)].
  (** non_shape/severity.rs *)
  Definition severity_value : parser N := pmapr (popt (pmapr (single to_iri sh_severity) severity_of_iri)) sev.
  (** shape_based/reifier_shape.rs *)
  Definition reifier_shape : parser (option (bool * list term)) :=
    pbind (values sh_reifier) (fun vs =>
    pmapr (popt (single to_bool sh_reification_required)) (fun b =>
      match vs with
      | [] => None
      | _ => Some (match b with Some b => b | None => false end, flat_map (fun t => match as_object t with Some o => [o] | None => [] end) vs)
      end)).
  Definition the_id : parser term := pbind get_focus (fun t => pres (to_obj t)).

  (** shape_type/node_shape.rs and property_shape.rs *)
  Definition node_shape : parser (term * ashape) :=
    pbind (values sh_path) (fun l =>
    match l with
    | _ :: _ => pfail
    | [] =>
        pbind the_id (fun id =>
        pbind severity_value (fun s =>
        pbind targets (fun ts =>
        pbind (objects_prop sh_property) (fun ps =>
        pmapr components (fun cs => (id, mkAshape None cs ps ts s None))))))
    end).
  Definition property_shape : parser (term * ashape) :=
    pbind get_focus (fun f =>
    pbind the_id (fun id =>
    pbind (pbind (single_value ord g sh_path) (path_parser ord g fuel)) (fun p =>
    pbind (set_focus f) (fun _ =>
    pbind severity_value (fun s =>
    pbind reifier_shape (fun r =>
    pbind targets (fun ts =>
    pbind (objects_prop sh_property) (fun ps =>
    pmapr components (fun cs => (id, mkAshape (Some p) cs ps ts s r)))))))))).
  (** parser.rs lines 202-206 *)
  Definition shape : parser (term * ashape) := porelse node_shape property_shape.

  (** parser.rs lines 54-193 *)
  Definition plain_objects (p : N) : list term :=
    tset (filter (fun t => match t with TLit _ => false | _ => true end) (map (fun t => snd t) (filter (fun t => N.eqb (snd (fst t)) p) g))).
  Definition subjects_with (p : N) : list term := tset (map (fun t => fst (fst t)) (filter (fun t => N.eqb (snd (fst t)) p) g)).
  Definition to_subject (t : term) : res term := match t with TLit _ => Err | _ => Ok t end.
  Definition list_members (p : N) : res (list term) :=
    bind (each (fun t => bind (fst (the_list t)) (each to_subject)) (ord (plain_objects p))) (fun ls => Ok (concat ls)).
  Definition candidates : res (list term) :=
    bind (list_members sh_and) (fun ands =>
    bind (list_members sh_or) (fun ors =>
    bind (list_members sh_xone) (fun xones =>
    Ok (ord (tset (instances_of_class sh_node_shape ++ instances_of_class sh_property_shape ++ instances_of_class sh_shape ++
                   subjects_with sh_target_class ++ subjects_with sh_target_subjects_of ++ subjects_with sh_target_objects_of ++ subjects_with sh_target_node ++
                   ands ++ ors ++ plain_objects sh_not ++ plain_objects sh_property ++ plain_objects sh_qualified ++ plain_objects sh_node ++ xones ++
                   plain_objects sh_reifier)))))).
  (** lines 28-43: a stack; every node is read once *)
  Definition parse : res (list (term * (term * ashape))) :=
    bind candidates (fun l => each (fun t => bind (fst (shape t)) (fun r => Ok (t, r))) (rev l)).
End Read.
