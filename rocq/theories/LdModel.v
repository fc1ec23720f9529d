(* Loading data into a session and querying it.
   Source: rudof_lib/src/api/data/implementations/load_data.rs:18-328,455-464, rudof_lib/src/api/query/implementations/run_query.rs:11-40,
   sparql_service/src/srdf_data/rdf_data.rs:24-104,146-173,181-205,244-246,385-412, rudof_rdf/src/rdf_impl/oxigraph/in_memory.rs:117-162,176-220,584-601,963,1157-1172,1291-1318,
   rudof_lib/src/utils/utils.rs:36-65, prefixmap/src/prefix_map.rs:111-143, rudof_lib/src/formats/data.rs:87-104, rudof_lib/src/types/data.rs,
   rudof_lib/src/formats/input_spec.rs:113-175, rudof_lib/src/api/data/implementations/reset_data.rs.
   Simplifications: text is a string of bytes; the parsers of RDF and of property graphs, the evaluation of queries, remote endpoints, files and URLs are a library; files do not change
   during a session; the primary data are in memory (not QLever); only SELECT queries; error values are one value. *)
From Coq Require Import List String Ascii Bool Arith.
Import ListNotations.
Open Scope string_scope.
Open Scope list_scope.

(* rudof_lib/src/formats/data.rs:17-35 *)
Inductive format := Turtle | NTriples | RdfXml | TriG | N3 | NQuads | JsonLd | Pg.
Definition format_dec (a b : format) : {a = b} + {a <> b}. Proof. decide equality. Defined.
(* in_memory.rs:1174-1190 *)
Inductive mode := Strict | Lax.
(* input_spec.rs: Stdin, paths, strings and URLs *)
Inductive spec := Stdin | Path (p : string) | Text (s : string) | Url (u : string).
Definition prefixes := list (string * string).

Class lib := {
  triple : Type;
  tdec : forall a b : triple, {a = b} + {a <> b};
  (* what the parser gives for a text with a base: triples, and None for an error or a triple with an IRI that is not valid *)
  events : format -> string -> string -> list (option triple);
  (* the prefixes that a Turtle text declares; None if one is not an IRI (in_memory.rs:208-214) *)
  declared : string -> string -> option prefixes;
  (* default_prefix_header of prefix_header.rs:25-54 in front of the text *)
  with_header : prefixes -> string -> string;
  utf8 : string -> bool;
  iri_ok : string -> bool;
  pgraph : Type;
  pg_empty : pgraph;
  pg_merge : pgraph -> pgraph -> pgraph;
  parse_pg : string -> option pgraph;
  endpoint : Type;
  endpoint_new : string -> option endpoint;
  endpoint_iri : endpoint -> string;
  stdin : string;
  file : string -> option string;
  fetch : string -> option string;
  query : Type;
  solution : Type;
  solve : query -> list triple -> list solution;
  remote : endpoint -> query -> option (list solution) }.

(* the outcome of an operation *)
Inductive res := Done | Fail | Panic.

Section model.
Context {L : lib}.
(* OxigraphInMemory of in_memory.rs:38-63 without the focus and the counter of blank nodes *)
Record memory := { graph : list triple; pm : prefixes; base_of : option string; store : option (list triple) }.
Definition no_memory : memory := {| graph := []; pm := []; base_of := None; store := None |}.
(* RdfData of rdf_data.rs:30-42 *)
Record rdf := { primary : memory; endpoints : list (string * endpoint); used : list (string * endpoint) }.
(* types/data.rs:4-8 *)
Inductive data := Rdf (d : rdf) | PG (g : pgraph).
(* the part of Rudof that loading uses: data, default prefixes, the base (of the configuration or the current folder) and the endpoints of the configuration *)
Record rudof := { held : option data; defaults : prefixes; conf_base : string; catalog : list (string * string) }.
Definition hold (d : option data) (r : rudof) : rudof := {| held := d; defaults := defaults r; conf_base := conf_base r; catalog := catalog r |}.
Definition with_primary (x : memory) (d : rdf) : rdf := {| primary := x; endpoints := endpoints d; used := used d |}.

(* prefix_map.rs:111-124,139-143 *)
Fixpoint put {A} (k : string) (v : A) (l : list (string * A)) : list (string * A) :=
  match l with
  | [] => [(k, v)]
  | (k', v') :: l => if String.eqb k k' then (k, v) :: l else (k', v') :: put k v l
  end.
Fixpoint get {A} (k : string) (l : list (string * A)) : option A :=
  match l with [] => None | (k', v) :: l => if String.eqb k k' then Some v else get k l end.
Definition merge_prefixes (a b : prefixes) : prefixes := fold_left (fun m p => put (fst p) (snd p) m) b a.
(* a graph is a set *)
Definition insert (t : triple) (g : list triple) : list triple := if in_dec tdec t g then g else g ++ [t].
(* in_memory.rs:186-206, handle_parse_error of 1157-1172 *)
Fixpoint feed (m : mode) (es : list (option triple)) (g : list triple) : bool * list triple :=
  match es with
  | [] => (true, g)
  | Some t :: es => feed m es (insert t g)
  | None :: es => match m with Strict => (false, g) | Lax => feed m es g end
  end.
Definition set_graph (g : list triple) (x : memory) : memory := {| graph := g; pm := pm x; base_of := base_of x; store := store x |}.
Definition set_base (b : string) (x : memory) : memory := {| graph := graph x; pm := pm x; base_of := Some b; store := store x |}.
Definition set_pm (p : prefixes) (x : memory) : memory := {| graph := graph x; pm := p; base_of := base_of x; store := store x |}.
(* in_memory.rs:130-162 and the parsers of each format; formats/data.rs:87-104 *)
Definition merge_from_reader (f : format) (b : string) (m : mode) (c : string) (x : memory) : res * memory :=
  match f with
  | TriG | N3 => (Panic, x)
  | Pg => (Fail, x)
  | Turtle =>
      let (ok, g) := feed m (events f b c) (graph x) in
      if ok then match declared b c with
                 | Some p => (Done, set_base b (set_pm (merge_prefixes (pm x) p) (set_base b (set_graph g x))))
                 | None => (Fail, set_base b (set_graph g x))
                 end
      else (Fail, set_graph g x)
  | _ => let (ok, g) := feed m (events f b c) (graph x) in if ok then (Done, set_base b (set_graph g x)) else (Fail, set_graph g x)
  end.
(* rdf_data.rs:83-98 and load_data.rs:317-327 *)
Fixpoint catalog_of (l : list (string * string)) (acc : list (string * endpoint)) : option (list (string * endpoint)) :=
  match l with
  | [] => Some acc
  | (n, u) :: l => match endpoint_new u with Some e => catalog_of l (put n e acc) | None => None end
  end.
Definition init_rdf (r : rudof) : option rdf :=
  match catalog_of (catalog r) [] with Some es => Some {| primary := no_memory; endpoints := es; used := [] |} | None => None end.
(* input_spec.rs:113-175 *)
Definition opened (s : spec) : option string :=
  match s with Stdin => Some stdin | Path p => file p | Text s => Some s | Url u => fetch u end.
(* read_rdf_data: load_data.rs:177-237 *)
Definition start_rdf (merge : bool) (r : rudof) : option rdf :=
  match held r with
  | Some (Rdf d) => if merge then Some d else init_rdf r
  | _ => init_rdf r
  end.
Definition read_rdf (f : format) (b : string) (m : mode) (merge : bool) (c : string) (r : rudof) : res * rudof :=
  match start_rdf merge r with
  | None => (Fail, r)
  | Some d =>
      match (match f with Turtle => if utf8 c then Some (with_header (defaults r) c) else None | _ => Some c end) with
      | None => (Fail, hold (Some (Rdf d)) r)
      | Some c => let (o, x) := merge_from_reader f b m c (primary d) in (o, hold (Some (Rdf (with_primary x d))) r)
      end
  end.
(* read_pg_data: load_data.rs:239-264 *)
Definition read_pg (merge : bool) (c : string) (r : rudof) : res * rudof :=
  let g := match held r with Some (PG g) => if merge then g else pg_empty | _ => pg_empty end in
  if utf8 c then
    match parse_pg c with Some h => (Done, hold (Some (PG (pg_merge g h))) r) | None => (Fail, hold (Some (PG g)) r) end
  else (Fail, hold (Some (PG g)) r).
(* the loops of load_data.rs:62-76,87-106 *)
Fixpoint each (read : string -> rudof -> res * rudof) (ss : list spec) (r : rudof) : res * rudof :=
  match ss with
  | [] => (Done, r)
  | s :: ss =>
      match opened s with
      | None => (Fail, r)
      | Some c => match read c r with (Done, r) => each read ss r | o => o end
      end
  end.

(* load_user_prefixes: load_data.rs:120-175 *)
Definition white (c : ascii) : bool :=
  match nat_of_ascii c with 9 | 10 | 11 | 12 | 13 | 32 => true | _ => false end.
(* Simplified: only ASCII white space is trimmed. *)
Fixpoint trim_left (s : string) : string := match s with String c t => if white c then trim_left t else s | "" => "" end.
Fixpoint trim_right (s : string) : string :=
  match s with
  | "" => ""
  | String c t => match trim_right t with "" => if white c then "" else String c "" | t => String c t end
  end.
Definition trim (s : string) : string := trim_right (trim_left s).
Fixpoint spaces (s : string) : string := match s with String " " t => spaces t | s => s end.
(* the text without its last character, when that is > *)
Fixpoint before_gt (s : string) : option string :=
  match s with
  | "" => None
  | String c "" => if Ascii.eqb c ">" then Some "" else None
  | String c t => match before_gt t with Some u => Some (String c u) | None => None end
  end.
(* what follows the first group of the regular expression: spaces, a colon, spaces, < and the second group before a final > *)
Definition tail_of (s : string) : option string :=
  match spaces s with
  | String ":" t => match spaces t with String "<" t => before_gt t | _ => None end
  | _ => None
  end.
(* the first group is greedy: the last place where the rest fits.  The dot does not fit a new line. *)
Fixpoint groups (s : string) : option (string * string) :=
  match s with
  | "" => None
  | String c t =>
      match (if Nat.eqb (nat_of_ascii c) 10 then None else groups t) with
      | Some (p, i) => Some (String c p, i)
      | None => match tail_of s with Some i => Some ("", i) | None => None end
      end
  end.
Fixpoint has_newline (s : string) : bool := match s with "" => false | String c t => Nat.eqb (nat_of_ascii c) 10 || has_newline t end.
Definition captures (s : string) : option (string * string) :=
  match groups s with Some (p, i) => if has_newline i then None else Some (p, i) | None => None end.
Definition add_prefix (line : string) (m : prefixes) : option prefixes :=
  match captures line with
  | Some (p, i) => if iri_ok (trim i) then Some (put (trim p) (trim i) m) else None
  | None => None
  end.
Fixpoint lines (s : string) : list string :=
  match s with
  | "" => [""]
  | String c t => if Nat.eqb (nat_of_ascii c) 10 then "" :: lines t
                  else match lines t with l :: ls => String c l :: ls | [] => [String c ""] end
  end.
Fixpoint add_lines (ls : list string) (m : prefixes) : option prefixes :=
  match ls with
  | [] => Some m
  | l :: ls => match trim l with
               | "" => add_lines ls m
               | l => match add_prefix l m with Some m => add_lines ls m | None => None end
               end
  end.
Definition user_prefixes (s : spec) : option prefixes :=
  match s with
  | Stdin => None
  | Text c => if utf8 c then add_prefix (trim c) [] else None
  | Path _ | Url _ => match opened s with Some c => if utf8 c then add_lines (lines c) [] else None | None => None end
  end.
Fixpoint all_prefixes (ss : list spec) (m : prefixes) : option prefixes :=
  match ss with
  | [] => Some m
  | s :: ss => match user_prefixes s with Some p => all_prefixes ss (merge_prefixes m p) | None => None end
  end.
(* load_data.rs:79-118 *)
Definition load_rdf (ss : list spec) (f : format) (b : string) (m : mode) (merge : bool) (ps : option (list spec)) (r : rudof) : res * rudof :=
  match each (read_rdf f b m merge) ss r with
  | (Done, r) =>
      match ps with
      | None => (Done, r)
      | Some ps =>
          match all_prefixes ps [] with
          | None => (Fail, r)
          | Some p =>
              match held r with
              | Some (Rdf d) => (Done, hold (Some (Rdf (with_primary (set_pm (merge_prefixes (pm (primary d)) p) (primary d)) d))) r)
              | _ => (Panic, r)
              end
          end
      end
  | o => o
  end.

(* load_data.rs:455-464: without white space around, slashes at the end and the scheme, in lower case *)
Fixpoint trim_slashes (s : string) : string :=
  match s with
  | "" => ""
  | String c t => match trim_slashes t with "" => if Ascii.eqb c "/" then "" else String c "" | t => String c t end
  end.
Fixpoint strip (p s : string) : option string :=
  match p, s with
  | "", s => Some s
  | String a p, String b s => if Ascii.eqb a b then strip p s else None
  | _, _ => None
  end.
Definition lower (c : ascii) : ascii :=
  let n := nat_of_ascii c in if Nat.leb 65 n && Nat.leb n 90 then ascii_of_nat (n + 32) else c.
Fixpoint lowercase (s : string) : string := match s with "" => "" | String c t => String (lower c) (lowercase t) end.
Definition normalize (s : string) : string :=
  let s := trim_slashes (trim s) in
  lowercase (match strip "http://" s with Some s => s | None => match strip "https://" s with Some s => s | None => s end end).
(* get_endpoint_name: load_data.rs:277-306 *)
Definition suits (e : string) (x : string * endpoint) : bool :=
  String.eqb (normalize (fst x)) (normalize e) || String.eqb (normalize (endpoint_iri (snd x))) (normalize e).
Definition endpoint_named (e : string) (d : rdf) : option endpoint :=
  match get e (endpoints d) with
  | Some x => Some x
  | None => match find (suits e) (endpoints d) with
            | Some x => Some (snd x)
            | None => if iri_ok e then endpoint_new e else None
            end
  end.
(* load_data.rs:266-275 *)
Definition load_endpoint (e : string) (r : rudof) : res * rudof :=
  match init_rdf r with
  | None => (Fail, r)
  | Some d =>
      match endpoint_named e d with
      | None => (Fail, hold (Some (Rdf d)) r)
      | Some x => (Done, hold (Some (Rdf {| primary := primary d; endpoints := endpoints d; used := put e x (used d) |})) r)
      end
  end.
(* the arguments of load_data; the builder gives no endpoint or no data *)
Record request := { sources : option (list spec); in_format : option format; in_base : option string; at_endpoint : option string;
  in_mode : option mode; merging : option bool; extra : option (list spec) }.
Definition or {A} (d : A) (o : option A) : A := match o with Some x => x | None => d end.
(* load_data.rs:18-60, utils.rs:36-65 *)
Definition load_data (q : request) (r : rudof) : res * rudof :=
  match (match in_base q with Some b => if iri_ok b then Some b else None | None => Some (conf_base r) end) with
  | None => (Fail, r)
  | Some b =>
      match sources q, at_endpoint q with
      | Some ss, None =>
          match or Turtle (in_format q) with
          | Pg => each (read_pg (or true (merging q))) ss r
          | f => load_rdf ss f b (or Strict (in_mode q)) (or true (merging q)) (extra q) r
          end
      | None, Some e => load_endpoint e r
      | _, _ => (Fail, r)
      end
  end.

(* ensure_store: in_memory.rs:591-601 *)
Definition ensure_store (x : memory) : memory :=
  match store x with Some _ => x | None => {| graph := graph x; pm := pm x; base_of := base_of x; store := Some (graph x) |} end.
(* in_memory.rs:1291-1318 *)
Definition select (q : query) (x : memory) : list solution := match store x with Some s => solve q s | None => [] end.
(* rdf_data.rs:385-412 *)
Fixpoint select_all (q : query) (es : list (string * endpoint)) : option (list solution) :=
  match es with
  | [] => Some []
  | (_, e) :: es => match remote e q, select_all q es with Some a, Some b => Some (a ++ b) | _, _ => None end
  end.
(* run_query: run_query.rs:11-40 *)
Definition run_query (q : query) (r : rudof) : option (list solution) * rudof :=
  match held r with
  | Some (Rdf d) =>
      let d := with_primary (ensure_store (primary d)) d in
      (match select_all q (used d) with Some s => Some (select q (primary d) ++ s) | None => None end, hold (Some (Rdf d)) r)
  | _ => (None, r)
  end.
(* a session *)
Inductive op := Load (q : request) | Ask (q : query) | Reset.
Definition step (o : op) (r : rudof) : option rudof :=
  match o with
  | Load q => match load_data q r with (Panic, _) => None | (_, r) => Some r end
  | Ask q => Some (snd (run_query q r))
  | Reset => Some (hold None r)
  end.
Fixpoint run (os : list op) (r : rudof) : option rudof :=
  match os with [] => Some r | o :: os => match step o r with Some r => run os r | None => None end end.
End model.
