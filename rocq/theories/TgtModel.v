(** The focus nodes of the targets of SHACL shapes, and the whole way from shapes to a report.

    shacl/src/validator/engine/mod.rs lines 51-71 (focus_nodes), engine/native.rs lines 35-123, engine/sparql.rs
    lines 61-125, index/class.rs lines 28-80, engine/focus_nodes_ops.rs; rudof_rdf/src/rdf_core/neighs_rdf.rs
    lines 255-265 (shacl_instances_of), 441-453 (subjects_for); constraints/mod.rs lines 402-418 (object_as_sparql);
    validator/processor/mod.rs lines 56-98.

    Simplifications. [key] is the conversion of RDF literals to internal literals and [back] the conversion back; all
    other terms stay as they are. A set is a list without repetitions, a map from classes to sets the list of its
    pairs. A SPARQL query is answered by [select], which gets the property path and the end of the pattern. *)
From Coq Require Import List Bool NArith ZArith.
Import ListNotations.
From Verif Require Import PathModel ProgModel ShaclModel GraphModel LevelModel.
From Verif Require Import PathModel ShaclModel ShcModel.

Section Targets.
  Variable g : graph.
  Variable rdf_type sub_class_of : N.
  Variable key : N -> option N.
  Variable back : N -> N.

  (** term_as_object and its inverse *)
  Definition as_object (t : term) : option term := match t with TLit n => option_map TLit (key n) | _ => Some t end.
  Definition as_term (o : term) : term := match o with TLit n => TLit (back n) | _ => o end.

  (** index/class.rs lines 28-58: pairs of a class and an instance, and of a class and a subclass *)
  Definition pair_of (t : triple) : option (term * term) :=
    match as_object (snd t), as_object (fst (fst t)) with Some c, Some i => Some (c, i) | _, _ => None end.
  Definition index := (list (term * term) * list (term * term))%type.
  Definition add_triple (ix : index) (t : triple) : index :=
    if N.eqb (snd (fst t)) rdf_type then match pair_of t with Some e => (e :: fst ix, snd ix) | None => ix end
    else if N.eqb (snd (fst t)) sub_class_of then match pair_of t with Some e => (fst ix, e :: snd ix) | None => ix end
    else ix.
  Definition build_index : index := fold_left add_triple g ([], []).
  (** lines 60-68 *)
  Definition look_up (m : list (term * term)) (c : term) : list term := tset (map snd (filter (fun e => term_eqb (fst e) c) m)).
  Definition instances_of (ix : index) (c : term) : list term := look_up (fst ix) c.
  Definition subclasses_of (ix : index) (c : term) : list term := look_up (snd ix) c.
  (** lines 71-81 *)
  Definition instances_of_with_subclasses (ix : index) (c : term) : list term :=
    fold_left (fun l k => textend l (instances_of ix k)) (subclasses_of ix c) (instances_of ix c).

  (** native.rs lines 41-51 *)
  Definition target_node (t : term) : res (list term) := match t with TBnode _ => Err | _ => Ok [as_term t] end.
  (** lines 53-71: with the index and without *)
  Definition target_class (ix : option index) (c : term) : res (list term) :=
    match ix with
    | Some ix => Ok (tset (map as_term (instances_of ix c)))
    | None => subjects_for g rdf_type (as_term c)
    end.
  (** lines 73-99 *)
  Definition target_subjects_of (p : N) : res (list term) := Ok (tset (map (fun t => fst (fst t)) (filter (fun t => N.eqb (snd (fst t)) p) g))).
  Definition target_objects_of (p : N) : res (list term) := Ok (tset (map (fun t => snd t) (filter (fun t => N.eqb (snd (fst t)) p) g))).
  (** lines 101-123 *)
  Definition implicit_class (ix : option index) (c : term) : res (list term) :=
    match ix with
    | Some ix => Ok (tset (map as_term (instances_of_with_subclasses ix c)))
    | None =>
        bind (subjects_for g rdf_type (as_term c)) (fun l =>
        bind (subjects_for g sub_class_of (as_term c)) (fun ks =>
        Ok (tset (l ++ flat_map (fun k => match subjects_for g rdf_type k with Ok l => l | _ => [] end) ks))))
    end.

  (** engine/mod.rs lines 51-71: targets that fail are passed over *)
  Fixpoint focus_nodes_from (each : target -> res (list term)) (ts : list target) : res (list term) :=
    match ts with
    | [] => Ok []
    | t :: ts =>
        match each t with
        | Panic => Panic
        | OutOfFuel => OutOfFuel
        | Err => focus_nodes_from each ts
        | Ok l => bind (focus_nodes_from each ts) (fun l' => Ok (l ++ l'))
        end
    end.
  Definition focus_nodes (each : target -> res (list term)) (ts : list target) : res (list term) :=
    bind (focus_nodes_from each ts) (fun l => Ok (tset l)).
  Definition native (ix : option index) (t : target) : res (list term) :=
    match t with
    | TgNode n => target_node n
    | TgClass c => target_class ix c
    | TgSubjectsOf p => target_subjects_of p
    | TgObjectsOf p => target_objects_of p
    | TgImplicit c => implicit_class ix c
    | TgWrong _ => Panic
    end.

  (** *** sparql.rs *)
  Variable select : path -> term -> list term.
  Definition class_path : path := PSeq [PPred rdf_type; PStar (PPred sub_class_of)].
  Definition sparql_class (c : term) : res (list term) :=
    match c with TBnode _ => Err | _ => Ok (select class_path (as_term c)) end.
  Definition sparql (t : target) : res (list term) :=
    match t with
    | TgNode n => target_node n
    | TgClass c | TgImplicit c => sparql_class c
    | TgSubjectsOf p => target_subjects_of p
    | TgObjectsOf p => target_objects_of p
    | TgWrong _ => Panic
    end.
End Targets.

(** ** processor/mod.rs lines 56-98: the focus nodes are found by the thread of the shape, unless it is deactivated *)
Section Whole.
  Variable W : world.
  Variable back : N -> N.
  Variable rdf_type sub_class_of : N.
  Definition shape_targets (st : state) (i : nat) : res (list term) :=
    match get_shape (ir_schema st) i with
    | Some s => if s_deactivated s then Ok [] else
        focus_nodes (native (w_graph W) rdf_type sub_class_of back (Some (build_index (w_graph W) rdf_type sub_class_of (w_key W)))) (ir_targets st i)
    | None => Ok []
    end.
  Definition targets_or_none (st : state) (i : nat) : list term := match shape_targets st i with Ok l => l | _ => [] end.
  (** compile the shapes, find the levels and validate them one after the other; a panic of one thread ends everything *)
  Inductive validates (regex : N -> bool) (scc : GraphModel.graph posneg -> list (list nat)) (fuel : nat) (A : ast) : res (list result) -> Prop :=
  | validates_not r : (forall x, ShcModel.compile regex scc fuel A <> Ok x) ->
      r = match ShcModel.compile regex scc fuel A with Panic => Panic | OutOfFuel => OutOfFuel | _ => Err end -> validates regex scc fuel A r
  | validates_panic st g levels level i : ShcModel.compile regex scc fuel A = Ok (st, g) -> topological_levels fuel g = Some levels ->
      In level (by_level (level_schema st) levels) -> In i level -> shape_targets st i = Panic -> validates regex scc fuel A Panic
  | validates_run st g levels r : ShcModel.compile regex scc fuel A = Ok (st, g) -> topological_levels fuel g = Some levels ->
      (forall level i, In level (by_level (level_schema st) levels) -> In i level -> exists l, shape_targets st i = Ok l) ->
      process W (ir_schema st) (targets_or_none st) fuel empty_cache (by_level (level_schema st) levels) r -> validates regex scc fuel A r.
End Whole.
