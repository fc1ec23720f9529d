(* What is expected of the shell, apart from how it is written. *)
From Coq Require Import List String Ascii Bool.
From Verif Require Import RpModel.
Import ListNotations.
Open Scope string_scope.

(* `path_to v ks x`: x is found in v under the keys ks, from the outside inwards. *)
Inductive path_to : value -> list string -> value -> Prop :=
| path_here v : path_to v [] v
| path_down t k x ks v : In (k, x) t -> path_to x ks v -> path_to (VTab t) (k :: ks) v.

Definition dotless (k : string) : Prop := ~ In "."%char (list_ascii_of_string k).

(* `names_path key ks`: the dotted key is the keys ks with dots between. *)
Definition names_path (key : string) (ks : list string) : Prop :=
  ks <> [] /\ Forall dotless ks /\ String.concat "." ks = key.

(* No table has a key twice, as in TOML. *)
Inductive proper : value -> Prop :=
| proper_tab t : NoDup (map fst t) -> Forall (fun p => proper (snd p)) t -> proper (VTab t)
| proper_leaf v : (forall t, v <> VTab t) -> proper v.

(* All keys are free of dots and not empty. *)
Inductive plain : value -> Prop :=
| plain_tab t : Forall (fun p => fst p <> "" /\ dotless (fst p)) t ->
    Forall (fun p => plain (snd p)) t -> plain (VTab t)
| plain_leaf v : (forall t, v <> VTab t) -> plain v.

(* Neither of the keys is the other or within the other. *)
Definition apart (k q : string) : Prop :=
  k <> q /\ (forall r, q <> k ++ "." ++ r) /\ (forall r, k <> q ++ "." ++ r).

Section Session.
Context {L : shell}.

(* What each target of `reset` is to clear. *)
Inductive owns : string -> slot -> Prop :=
| owns_data : owns "data" Data
| owns_shex : owns "shex" ShexSchema
| owns_shex_ir : owns "shex" ShexIr
| owns_shex_validator : owns "shex" ShexValidator
| owns_shex_map : owns "shex" MapState
| owns_shacl : owns "shacl" ShaclShapes
| owns_pgschema : owns "pgschema" PgSchema
| owns_shapemap : owns "shapemap" Shapemap
| owns_dctap : owns "dctap" Dctap
| owns_service : owns "service" Service
| owns_query : owns "query" SparqlQuery
| owns_results : owns "query" QueryResults
| owns_sparql : owns "sparql" SparqlQuery
| owns_typemap : owns "typemap" Typemap
| owns_rdf_config : owns "rdf-config" RdfConfig.

Definition a_target (t : string) : Prop := t = "endpoint" \/ exists f, owns t f.

(* A session as it is started with the same configuration. *)
Definition fresh (c : config) : session :=
  {| loaded := []; prefixes := []; settings := c; active := None |}.

(* Equal but for what is loaded as data. *)
Definition same_but_data (s s' : session) : Prop :=
  filter (fun p => negb (slot_eqb (fst p) Data)) (loaded s) =
  filter (fun p => negb (slot_eqb (fst p) Data)) (loaded s') /\
  prefixes s = prefixes s' /\ settings s = settings s' /\ active s = active s'.

(* The name shown by `endpoint` is the endpoint the data come from. *)
Definition in_step (used : item -> option string) (s : session) : Prop :=
  active s = match item_of s Data with
             | Some d => used d
             | None => None
             end.

End Session.

(* No blank in a word. *)
Definition blankless (w : string) : Prop := ~ In " "%char (list_ascii_of_string w).
