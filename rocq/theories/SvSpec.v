(* What a graph says about a SPARQL service, apart from how the program reads it. *)
From Coq Require Import List String Bool ZArith Permutation.
Import ListNotations.
From Verif Require Import SvModel.
Open Scope list_scope.

Section spec.
Context {L : lib} (g : graph).
Definition says (s : subject) (p : string) (t : term) : Prop := In {| t_s := s; t_p := p; t_o := t |} g.
Definition only (s : subject) (p : string) (t : term) : Prop := says s p t /\ forall u, says s p u -> u = t.
Definition silent (s : subject) (p : string) : Prop := forall t, ~ says s p t.
Definition perhaps {A} (s : subject) (p : string) (R : term -> A -> Prop) (x : option A) : Prop :=
  match x with None => silent s p | Some a => exists t, only s p t /\ R t a end.
Definition is_iri (t : term) (i : string) : Prop := t = TSub (SIri i).
Definition is_int (t : term) (n : Z) : Prop := exists l, t = TLit l /\ to_integer l = Some n.
Definition is_text (t : term) (x : string) : Prop := exists l, t = TLit l /\ lexical l = x.
(* the values of a property are IRIs and blank nodes, and the list has one entry for each *)
Definition list_of {A} (s : subject) (p : string) (R : subject -> A -> Prop) (l : list A) : Prop :=
  exists ss, NoDup ss /\ (forall t, says s p t <-> In t (List.map TSub ss)) /\ Forall2 R ss l.
Definition set_of {A} (s : subject) (p : string) (R : string -> A -> Prop) (l : list A) : Prop :=
  list_of s p (fun x a => exists i, x = SIri i /\ R i a) l.

Definition property_of (s : subject) (x : property_part) : Prop :=
  pp_id x = s /\ only s (void "property") (TSub (SIri (pp_property x))) /\ perhaps s (void "triples") is_int (pp_triples x).
Definition class_of (s : subject) (x : class_part) : Prop :=
  cp_id x = s /\ only s (void "class") (TSub (SIri (cp_class x))) /\ list_of s (void "propertyPartition") property_of (cp_properties x).
Definition graph_of (s : subject) (x : graph_descr) : Prop :=
  gd_id x = s /\ perhaps s (void "triples") is_int (gd_triples x) /\ perhaps s (void "classes") is_int (gd_classes x) /\
  perhaps s (void "properties") is_int (gd_properties x) /\ perhaps s (void "entities") is_int (gd_entities x) /\ perhaps s (void "documents") is_int (gd_documents x) /\
  list_of s (void "propertyPartition") property_of (gd_property_parts x) /\ list_of s (void "classPartition") class_of (gd_class_parts x).
Definition named_of (s : subject) (x : named_graph) : Prop :=
  ng_id x = s /\ only s (sd "name") (TSub (SIri (ng_name x))) /\ list_of s (sd "graph") graph_of (ng_graphs x).
Definition dataset_of (s : subject) (x : dataset) : Prop :=
  ds_id x = s /\ perhaps s (sd "defaultGraph") (fun t d => exists u, t = TSub u /\ graph_of u d) (ds_default x) /\ list_of s (sd "namedGraph") named_of (ds_named x).
Definition collection_of (s : subject) (x : collection) : Prop := gc_id x = s /\ list_of s (sd "namedGraph") named_of (gc_graphs x).

Inductive language_of : string -> language -> Prop :=
| L10 : language_of (sd "SPARQL10Query") SPARQL10Query | L11 : language_of (sd "SPARQL11Query") SPARQL11Query | LU : language_of (sd "SPARQL11Update") SPARQL11Update.
Definition known_features : list (string * feature) :=
  [(sd "BasicFederatedQuery", BasicFederatedQuery); (sd "UnionDefaultGraph", UnionDefaultGraph); (sd "EmptyGraphs", EmptyGraphs); (sd "RequiresDataset", RequiresDataset);
   (sd "DereferencesURIs", DereferencesURIs)].
Definition known_results : list (string * result) :=
  [(fmt "SPARQL_Results_XML", Xml); (fmt "JSON-LD", JsonLD); (fmt "N-Triples", NTriples); (fmt "SPARQL_Results_CSV", Csv); (fmt "SPARQL_Results_JSON", Json); (fmt "Turtle", Turtle);
   (fmt "SPARQL_Results_TSV", Tsv); (fmt "RDF_XML", RdfXml)].
Definition feature_of (i : string) (f : feature) : Prop := In (i, f) known_features \/ (~ In i (List.map fst known_features) /\ f = OtherFeature i).
Definition result_of (i : string) (r : result) : Prop := In (i, r) known_results \/ (~ In i (List.map fst known_results) /\ r = OtherResult i).
Definition service_of (s : subject) (d : service) : Prop :=
  perhaps s dct_title is_text (sv_title d) /\ perhaps s (sd "endpoint") is_iri (sv_endpoint d) /\
  perhaps s (sd "defaultDataset") (fun t x => exists u, t = TSub u /\ dataset_of u x) (sv_dataset d) /\
  set_of s (sd "supportedLanguage") language_of (sv_languages d) /\ set_of s (sd "feature") feature_of (sv_features d) /\ set_of s (sd "resultFormat") result_of (sv_results d) /\
  list_of s (sd "availableGraphs") collection_of (sv_available d).
(* the one service of the graph *)
Definition the_service (s : subject) : Prop := forall x, says x rdf_type (TSub (SIri (sd "Service"))) <-> x = s.
(* no counts of properties, entities and documents, and no partitions in the partitions of classes *)
Definition plain : Prop :=
  (forall s, silent s (void "properties") /\ silent s (void "entities") /\ silent s (void "documents")) /\
  (forall s u, says s (void "classPartition") (TSub u) -> silent u (void "propertyPartition") /\ silent u (void "property")).
End spec.
