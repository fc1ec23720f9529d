(* Reading the descriptions of SPARQL services.
   Source: sparql_service/src/service_description_parser.rs:40-482, service_description_vocab.rs, service_description.rs:56-175,
   rudof_rdf/src/rdf_core/parser/rdf_node_parser/combinators.rs:18-36,75-100,130-150,240-262,408-450 (Optional, And, With, Then, MapPropertyValuesParser),
   constructors/property.rs:20-60,95-150 (values, single values) and 560-623, constructors/focus.rs, constructors/typing.rs:60-95, utils.rs, mie/src/mie.rs:146-160.
   Simplifications: a graph is a list of triples without triple terms; literals are their lexical form, datatype and language; hash sets are lists in an order of the library (any order);
   reading numbers is a library; errors are one value; graph collections are lists; prefix maps are left out except that they are passed on. *)
From Coq Require Import List String Bool ZArith Permutation.
Import ListNotations.
Open Scope string_scope.
Open Scope list_scope.

Record literal : Type := { lexical : string; datatype : string; lang : option string }.
Inductive subject : Type := SIri (i : string) | SBlank (b : string).
Inductive term : Type := TSub (s : subject) | TLit (l : literal).
Record triple : Type := { t_s : subject; t_p : string; t_o : term }.
Definition graph := list triple.
Definition subject_dec (a b : subject) : {a = b} + {a <> b}. Proof. decide equality; apply string_dec. Defined.
Definition literal_dec (a b : literal) : {a = b} + {a <> b}.
Proof. decide equality; try apply string_dec. destruct lang0 as [x|], lang1 as [y|]; [destruct (string_dec x y); [left|right]; congruence|right; discriminate|right; discriminate|left; reflexivity]. Defined.
Definition term_dec (a b : term) : {a = b} + {a <> b}. Proof. decide equality; [apply subject_dec|apply literal_dec]. Defined.
Class lib : Type := {
  (* the order of a hash set *)
  order : list term -> list term;
  order_perm : forall l, Permutation (order l) l;
  (* to_integer of a literal *)
  to_integer : literal -> option Z }.

(* service_description_vocab.rs *)
Definition sd (s : string) : string := "http://www.w3.org/ns/sparql-service-description#" ++ s.
Definition void (s : string) : string := "http://rdfs.org/ns/void#" ++ s.
Definition rdf_type : string := "http://www.w3.org/1999/02/22-rdf-syntax-ns#type".
Definition dct_title : string := "http://purl.org/dc/terms/title".
Definition fmt (s : string) : string := "http://www.w3.org/ns/formats/" ++ s.

(* service_description.rs:29-56 and the parts of descriptions *)
Inductive language : Type := SPARQL10Query | SPARQL11Query | SPARQL11Update.
Inductive feature : Type := DereferencesURIs | UnionDefaultGraph | RequiresDataset | EmptyGraphs | BasicFederatedQuery | OtherFeature (i : string).
Inductive result : Type := Xml | Turtle | Tsv | RdfXml | Json | NTriples | Csv | JsonLD | OtherResult (i : string).
Record property_part : Type := { pp_id : subject; pp_property : string; pp_triples : option Z }.
Record class_part : Type := { cp_id : subject; cp_class : string; cp_properties : list property_part }.
Record graph_descr : Type := { gd_id : subject; gd_triples : option Z; gd_classes : option Z; gd_properties : option Z; gd_entities : option Z; gd_documents : option Z;
  gd_property_parts : list property_part; gd_class_parts : list class_part }.
Record named_graph : Type := { ng_id : subject; ng_name : string; ng_graphs : list graph_descr }.
Record dataset : Type := { ds_id : subject; ds_default : option graph_descr; ds_named : list named_graph }.
Record collection : Type := { gc_id : subject; gc_graphs : list named_graph }.
Record service : Type := { sv_title : option string; sv_endpoint : option string; sv_dataset : option dataset; sv_languages : list language;
  sv_features : list feature; sv_results : list result; sv_available : list collection }.

(* Panic: expect *)
Inductive res (A : Type) : Type := Ok (a : A) | Err | Panic.
Arguments Ok {A} a. Arguments Err {A}. Arguments Panic {A}.

Section model.
Context {L : lib} (g : graph).
(* a parser: the focus before, the outcome and the focus after *)
Definition parser (A : Type) : Type := term -> res A * term.
Definition ret {A} (a : A) : parser A := fun f => (Ok a, f).
Definition bind {A B} (p : parser A) (k : A -> parser B) : parser B :=
  fun f => match p f with (Ok a, f) => k a f | (Err, f) => (Err, f) | (Panic, f) => (Panic, f) end.
Definition optional {A} (p : parser A) : parser (option A) :=
  fun f => match p f with (Ok a, f) => (Ok (Some a), f) | (Err, f) => (Ok None, f) | (Panic, f) => (Panic, f) end.
Definition focus : parser term := fun f => (Ok f, f).
Definition set_focus (t : term) : parser unit := fun _ => (Ok tt, t).
Definition check {A} (x : option A) : parser A := fun f => (match x with Some a => Ok a | None => Err end, f).
Definition expect {A} (x : option A) : parser A := fun f => (match x with Some a => Ok a | None => Panic end, f).
(* the values of a property: property.rs:38-60 *)
Definition objects (s : subject) (p : string) : list term :=
  List.map t_o (filter (fun t => if subject_dec s (t_s t) then String.eqb p (t_p t) else false) g).
Definition values (p : string) : parser (list term) :=
  fun f => (Ok match f with TSub s => order (nodup term_dec (objects s p)) | TLit _ => [] end, f).
(* property.rs:112-140 *)
Definition single (p : string) : parser term := bind (values p) (fun l => check (hd_error l)).
Definition as_iri (t : term) : option string := match t with TSub (SIri i) => Some i | _ => None end.
Definition as_subject (t : term) : option subject := match t with TSub s => Some s | _ => None end.
Definition as_text (t : term) : option string := match t with TLit l => Some (lexical l) | _ => None end.
Definition as_int (t : term) : option Z := match t with TLit l => to_integer l | _ => None end.
Definition single_iri (p : string) : parser string := bind (single p) (fun t => check (as_iri t)).
Definition single_subject (p : string) : parser subject := bind (single p) (fun t => check (as_subject t)).
Definition single_text (p : string) : parser string := bind (single p) (fun t => check (as_text t)).
Definition single_int (p : string) : parser Z := bind (single p) (fun t => check (as_int t)).
Fixpoint all {A B} (f : A -> option B) (l : list A) : option (list B) :=
  match l with [] => Some [] | x :: l => match f x, all f l with Some y, Some ys => Some (y :: ys) | _, _ => None end end.
Definition iris (p : string) : parser (list string) := bind (values p) (fun l => check (all as_iri l)).
(* combinators.rs:425-450 *)
Fixpoint each {A} (p : parser A) (l : list term) : parser (list A) :=
  match l with
  | [] => ret []
  | t :: l => bind (set_focus t) (fun _ => bind p (fun a => bind (each p l) (fun r => ret (a :: r))))
  end.
Definition map_property {A} (prop : string) (p : parser A) : parser (list A) :=
  bind focus (fun saved => bind (values prop) (fun l => bind (each p l) (fun r => bind (set_focus saved) (fun _ => ret r)))).

(* parser.rs:463-482 *)
Definition property_partition : parser property_part :=
  bind focus (fun f => bind (single_iri (void "property")) (fun i => bind (optional (single_int (void "triples"))) (fun n =>
    bind (expect (as_subject f)) (fun s => ret {| pp_id := s; pp_property := i; pp_triples := n |})))).
(* parser.rs:437-461: the property partitions are the values of void:property *)
Definition class_partition : parser class_part :=
  bind focus (fun f => bind (single_iri (void "class")) (fun i => bind (map_property (void "property") property_partition) (fun ps =>
    bind (expect (as_subject f)) (fun s => ret {| cp_id := s; cp_class := i; cp_properties := ps |})))).
Definition at_focus {A} (t : term) (p : parser A) : parser A := bind (set_focus t) (fun _ => p).
(* parser.rs:305-332,393-435 *)
Definition graph_description (s : subject) : parser graph_descr :=
  let t := TSub s in
  at_focus t (bind (at_focus t (optional (single_int (void "triples")))) (fun n => bind (at_focus t (optional (single_int (void "classes")))) (fun c =>
    bind (at_focus t (map_property (void "classPartition") class_partition)) (fun cs => bind (at_focus t (map_property (void "propertyPartition") property_partition)) (fun ps =>
      ret {| gd_id := s; gd_triples := n; gd_classes := c; gd_properties := None; gd_entities := None; gd_documents := None; gd_property_parts := ps; gd_class_parts := cs |}))))).
(* parser.rs:382-391 *)
Definition one_graph : parser graph_descr := bind focus (fun f => bind (expect (as_subject f)) graph_description).
(* parser.rs:345-380 *)
Definition named_graph_p : parser named_graph :=
  bind focus (fun f => at_focus f (bind (single_iri (sd "name")) (fun n => bind (map_property (sd "graph") one_graph) (fun gs =>
    bind (expect (as_subject f)) (fun s => ret {| ng_id := s; ng_name := n; ng_graphs := gs |}))))).
(* parser.rs:255-303,334-343 *)
Definition default_graph (t : term) : parser graph_descr := at_focus t (bind (single_subject (sd "defaultGraph")) graph_description).
Definition dataset_p (s : subject) : parser dataset :=
  let t := TSub s in
  at_focus t (bind (optional (default_graph t)) (fun d => bind (at_focus t (map_property (sd "namedGraph") named_graph_p)) (fun ns =>
    ret {| ds_id := s; ds_default := d; ds_named := ns |}))).
Definition default_dataset (t : term) : parser dataset := at_focus t (bind (single_subject (sd "defaultDataset")) dataset_p).
(* parser.rs:222-253 *)
Definition available_graph : parser collection :=
  bind focus (fun f => bind (map_property (sd "namedGraph") named_graph_p) (fun ns => bind (expect (as_subject f)) (fun s => ret {| gc_id := s; gc_graphs := ns |}))).
Definition available_graphs (t : term) : parser (list collection) := at_focus t (map_property (sd "availableGraphs") available_graph).
(* parser.rs:178-220 *)
Definition language_iri (i : string) : option language :=
  if String.eqb i (sd "SPARQL10Query") then Some SPARQL10Query else if String.eqb i (sd "SPARQL11Query") then Some SPARQL11Query
  else if String.eqb i (sd "SPARQL11Update") then Some SPARQL11Update else None.
Definition result_iri (i : string) : result :=
  if String.eqb i (fmt "SPARQL_Results_XML") then Xml else if String.eqb i (fmt "JSON-LD") then JsonLD else if String.eqb i (fmt "N-Triples") then NTriples
  else if String.eqb i (fmt "SPARQL_Results_CSV") then Csv else if String.eqb i (fmt "SPARQL_Results_JSON") then Json else if String.eqb i (fmt "Turtle") then Turtle
  else if String.eqb i (fmt "SPARQL_Results_TSV") then Tsv else if String.eqb i (fmt "RDF_XML") then RdfXml else OtherResult i.
Definition feature_iri (i : string) : feature :=
  if String.eqb i (sd "BasicFederatedQuery") then BasicFederatedQuery else if String.eqb i (sd "UnionDefaultGraph") then UnionDefaultGraph
  else if String.eqb i (sd "EmptyGraphs") then EmptyGraphs else if String.eqb i (sd "RequiresDataset") then RequiresDataset
  else if String.eqb i (sd "DereferencesURIs") then DereferencesURIs else OtherFeature i.
Definition languages : parser (list language) := bind (iris (sd "supportedLanguage")) (fun l => check (all language_iri l)).
Definition results : parser (list result) := bind (iris (sd "resultFormat")) (fun l => ret (List.map result_iri l)).
Definition features : parser (list feature) := bind (iris (sd "feature")) (fun l => ret (List.map feature_iri l)).
(* parser.rs:56-117 *)
Definition service_description : parser service :=
  bind focus (fun f => bind (check (as_subject f)) (fun s => let t := TSub s in
  bind (optional (single_iri (sd "endpoint"))) (fun e => bind languages (fun ls => bind results (fun rs => bind features (fun fs =>
  bind (optional (default_dataset t)) (fun ds => bind (available_graphs t) (fun ags => bind (at_focus t (optional (single_text dct_title))) (fun ti =>
    ret {| sv_title := ti; sv_endpoint := e; sv_dataset := ds; sv_languages := ls; sv_features := fs; sv_results := rs; sv_available := ags |}))))))))).
(* parser.rs:48-54, typing.rs:60-85 *)
Definition instances : list subject :=
  nodup subject_dec (List.map t_s (filter (fun t => String.eqb rdf_type (t_p t) && if term_dec (t_o t) (TSub (SIri (sd "Service"))) then true else false) g)).
Definition parse : res service :=
  match instances with [s] => fst (service_description (TSub s)) | _ => Err end.
End model.

(* service_description.rs:142-167, mie.rs:146-160: add_graphs replaces the graphs *)
Record mie : Type := { mie_endpoint : option string; mie_title : option string; mie_graphs : list string }.
Fixpoint mie_names (cs : list collection) (names : list string) (m : list string) : list string :=
  match cs with
  | [] => m
  | c :: cs => let names := names ++ List.map ng_name (gc_graphs c) in mie_names cs names names
  end.
Definition service2mie (d : service) : mie := {| mie_endpoint := sv_endpoint d; mie_title := sv_title d; mie_graphs := mie_names (sv_available d) [] [] |}.
