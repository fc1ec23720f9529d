(* The neighbourhood of a node: graphs in memory, endpoints with a cache, and both together.

   rudof_rdf/src/rdf_impl/oxigraph/in_memory.rs:734-806 (triples_matching), rudof_rdf/src/rdf_core/neighs_rdf.rs (outgoing_arcs_from_list,
   incoming_arcs_from_list), rudof_rdf/src/rdf_impl/backend.rs:187-219, rudof_rdf/src/rdf_impl/oxigraph/endpoint.rs:559-745,
   sparql_service/src/srdf_data/rdf_data.rs:427-505, shex_validation/src/engine.rs:1618-1663 (neighs).

   Simplifications.
   - IRIs, labels of blank nodes and literals are texts.  Hash maps and hash sets are lists; their order is not used.
   - An endpoint has a graph; a query is answered as SPARQL says, where a blank node is a variable, or fails.  The text of queries is left out.
   - Incoming arcs keep subjects as terms.  Triple terms are left out. *)
From Coq Require Import List String Bool.
Import ListNotations.
Open Scope string_scope.

Inductive subject : Type := SIri (i : string) | SBlank (b : string).
Inductive term : Type := TSub (s : subject) | TLit (l : string).
Definition subject_dec (a b : subject) : {a = b} + {a <> b}. Proof. decide equality; apply string_dec. Defined.
Definition term_dec (a b : term) : {a = b} + {a <> b}. Proof. decide equality; [apply subject_dec|apply string_dec]. Defined.
Definition same_subject (a b : subject) : bool := if subject_dec a b then true else false.
Definition same_term (a b : term) : bool := if term_dec a b then true else false.
Record triple : Type := { t_s : subject; t_p : string; t_o : term }.
Definition graph := list triple.

(* oxrdf: the indices of a graph *)
Definition same_triple (a b : triple) : bool := same_subject (t_s a) (t_s b) && String.eqb (t_p a) (t_p b) && same_term (t_o a) (t_o b).
Definition objects_for (g : graph) (s : subject) (p : string) : list term :=
  List.map t_o (filter (fun t => same_subject (t_s t) s && String.eqb (t_p t) p) g).
Definition subjects_for (g : graph) (p : string) (o : term) : list subject :=
  List.map t_s (filter (fun t => String.eqb (t_p t) p && same_term (t_o t) o) g).
Definition for_subject (g : graph) (s : subject) : graph := filter (fun t => same_subject (t_s t) s) g.
Definition for_predicate (g : graph) (p : string) : graph := filter (fun t => String.eqb (t_p t) p) g.
Definition for_object (g : graph) (o : term) : graph := filter (fun t => same_term (t_o t) o) g.

(* in_memory.rs:734-806; None is Any *)
Definition matching (g : graph) (s : option subject) (p : option string) (o : option term) : graph :=
  match s, p, o with
  | Some s, Some p, Some o =>
      let t := {| t_s := s; t_p := p; t_o := o |} in if existsb (same_triple t) g then [t] else []
  | Some s, Some p, None => List.map (fun o => {| t_s := s; t_p := p; t_o := o |}) (objects_for g s p)
  | Some s, None, Some o => filter (fun t => same_term (t_o t) o) (for_subject g s)
  | Some s, None, None => for_subject g s
  | None, Some p, Some o => List.map (fun s => {| t_s := s; t_p := p; t_o := o |}) (subjects_for g p o)
  | None, Some p, None => for_predicate g p
  | None, None, Some o => for_object g o
  | None, None, None => g
  end.

(* Maps from predicates to sets of nodes *)
Definition arcs := list (string * list term).
Definition insert_set (o : term) (l : list term) : list term := if in_dec term_dec o l then l else (l ++ [o])%list.
Fixpoint arc_at (p : string) (m : arcs) : option (list term) :=
  match m with [] => None | (q, os) :: m => if String.eqb p q then Some os else arc_at p m end.
(* entry(p).or_default().insert(o) and entry(p).or_default() *)
Fixpoint insert_arc (p : string) (o : term) (m : arcs) : arcs :=
  match m with [] => [(p, [o])] | (q, os) :: m => if String.eqb p q then (q, insert_set o os) :: m else (q, os) :: insert_arc p o m end.
Definition touch (p : string) (m : arcs) : arcs := match arc_at p m with Some _ => m | None => (m ++ [(p, [])])%list end.
Definition extend (p : string) (os : list term) (m : arcs) : arcs := fold_left (fun m o => insert_arc p o m) os (touch p m).
Definition member (p : string) (ps : list string) : bool := existsb (String.eqb p) ps.

(* neighs_rdf.rs: outgoing_arcs_from_list, of the triples of the subject *)
Definition outgoing_from (ts : graph) (preds : list string) : arcs * list string :=
  fold_left (fun r t => if member (t_p t) preds then (insert_arc (t_p t) (t_o t) (fst r), snd r) else (fst r, (snd r ++ [t_p t])%list)) ts ([], []).
(* neighs_rdf.rs: incoming_arcs_from_list, of the triples of the object *)
Definition incoming_from (ts : graph) (preds : list string) : arcs :=
  fold_left (fun m t => if member (t_p t) preds then insert_arc (t_p t) (TSub (t_s t)) m else m) ts [].

(* Endpoints: what they have, whether they answer, the cache (endpoint.rs:65) and the requests so far *)
Definition cache := list (subject * arcs).
Record endpoint : Type := { e_graph : graph; e_up : bool; e_cache : cache; e_asked : nat }.
Fixpoint cached (s : subject) (c : cache) : option arcs :=
  match c with [] => None | (s', m) :: c => if subject_dec s s' then Some m else cached s c end.
Fixpoint put_cache (s : subject) (m : arcs) (c : cache) : cache :=
  match c with [] => [(s, m)] | (s', m') :: c => if subject_dec s s' then (s, m) :: c else (s', m') :: put_cache s m c end.
Definition asked (e : endpoint) : endpoint := {| e_graph := e_graph e; e_up := e_up e; e_cache := e_cache e; e_asked := S (e_asked e) |}.
(* SPARQL: a blank node of a query stands for any node *)
Definition fits_subject (s x : subject) : bool := match s with SIri _ => same_subject s x | SBlank _ => true end.
Definition fits_term (o x : term) : bool := match o with TSub (SBlank _) => true | _ => same_term o x end.
Definition solutions (g : graph) (s : subject) (preds : list string) : list (string * term) :=
  List.map (fun t => (t_p t, t_o t)) (filter (fun t => fits_subject s (t_s t) && member (t_p t) preds) g).
(* endpoint.rs:675-745 *)
Definition endpoint_outgoing (e : endpoint) (s : subject) (preds : list string) : option (arcs * list string) * endpoint :=
  match preds with
  | [] => (Some ([], []), e)
  | _ =>
      let known := match cached s (e_cache e) with Some m => m | None => [] end in
      let results := fold_left (fun r p => match arc_at p known with Some os => extend p os r | None => r end) preds [] in
      let uncached := filter (fun p => match arc_at p known with Some _ => false | None => true end) preds in
      match uncached with
      | [] => (Some (results, []), e)
      | _ =>
          if e_up e then
            let sols := solutions (e_graph e) s uncached in
            let entry := fold_left (fun m p => touch p m) uncached known in
            let entry := fold_left (fun m x => insert_arc (fst x) (snd x) m) sols entry in
            (Some (fold_left (fun m x => insert_arc (fst x) (snd x) m) sols results, []),
             {| e_graph := e_graph e; e_up := e_up e; e_cache := put_cache s entry (e_cache e); e_asked := S (e_asked e) |})
          else (None, asked e)
      end
  end.
(* endpoint.rs:598-673, for Any, Any and an object *)
Definition endpoint_with_object (e : endpoint) (o : term) : option graph * endpoint :=
  if e_up e then (Some (List.map (fun t => {| t_s := t_s t; t_p := t_p t; t_o := o |}) (filter (fun t => fits_term o (t_o t)) (e_graph e))), asked e)
  else (None, asked e).
(* endpoint.rs:565-567 *)
Definition endpoint_triples (e : endpoint) : option graph * endpoint := if e_up e then (Some (e_graph e), asked e) else (None, asked e).

(* backend.rs *)
Inductive backend : Type := InMemory (g : graph) | Remote (e : endpoint).
(* backend.rs:187-219 *)
Definition backend_outgoing (b : backend) (s : subject) (preds : list string) : option (arcs * list string) * backend :=
  match b with
  | Remote e => let (r, e) := endpoint_outgoing e s preds in (r, Remote e)
  | InMemory g => (Some match preds with [] => ([], []) | _ => outgoing_from (matching g (Some s) None None) preds end, b)
  end.
Definition backend_with_object (b : backend) (o : term) : option graph * backend :=
  match b with
  | Remote e => let (r, e) := endpoint_with_object e o in (r, Remote e)
  | InMemory g => (Some (matching g None None (Some o)), b)
  end.
Definition backend_triples (b : backend) : option graph * backend :=
  match b with Remote e => let (r, e) := endpoint_triples e in (r, Remote e) | InMemory g => (Some (matching g None None None), b) end.

(* rdf_data.rs: a primary backend and the endpoints in use *)
Record data : Type := { primary : backend; used : list endpoint }.
(* rdf_data.rs:465-504 *)
Fixpoint merge_outgoing (es : list endpoint) (s : subject) (preds : list string) (results : arcs) : option arcs * list endpoint :=
  match es with
  | [] => (Some results, [])
  | e :: es => match endpoint_outgoing e s preds with
               | (None, e) => (None, e :: es)
               | (Some (m, _), e) =>
                   let (r, es) := merge_outgoing es s preds (fold_left (fun r x => extend (fst x) (snd x) r) m results) in (r, e :: es)
               end
  end.
Definition data_outgoing (d : data) (s : subject) (preds : list string) : option (arcs * list string) * data :=
  match preds with
  | [] => (Some ([], []), d)
  | _ => match backend_outgoing (primary d) s preds with
         | (None, b) => (None, {| primary := b; used := used d |})
         | (Some (results, reminder), b) =>
             let (r, es) := merge_outgoing (used d) s preds results in
             (option_map (fun m => (m, reminder)) r, {| primary := b; used := es |})
         end
  end.
(* rdf_data.rs:443-463 *)
Fixpoint merge_with_object (es : list endpoint) (o : term) (ts : graph) : option graph * list endpoint :=
  match es with
  | [] => (Some ts, [])
  | e :: es => match endpoint_with_object e o with
               | (None, e) => (None, e :: es)
               | (Some more, e) => let (r, es) := merge_with_object es o (ts ++ more)%list in (r, e :: es)
               end
  end.
Definition data_incoming (d : data) (o : term) (preds : list string) : option arcs * data :=
  match backend_with_object (primary d) o with
  | (None, b) => (None, {| primary := b; used := used d |})
  | (Some ts, b) => let (r, es) := merge_with_object (used d) o ts in (option_map (fun ts => incoming_from ts preds) r, {| primary := b; used := es |})
  end.
(* rdf_data.rs:427-441: endpoints that fail have no triples *)
Definition data_triples (d : data) : option graph :=
  match fst (backend_triples (primary d)) with
  | None => None
  | Some ts => Some (ts ++ flat_map (fun e => match fst (endpoint_triples e) with Some ts => ts | None => [] end) (used d))%list
  end.

(* engine.rs:1618-1663 *)
Inductive pred : Type := Direct (p : string) | Inverse (p : string).
Definition direct_ones (ps : list pred) : list string := flat_map (fun p => match p with Direct p => [p] | Inverse _ => [] end) ps.
Definition inverse_ones (ps : list pred) : list string := flat_map (fun p => match p with Inverse p => [p] | Direct _ => [] end) ps.
Definition listed (k : string -> pred) (m : arcs) : list (pred * term) := flat_map (fun x => List.map (fun o => (k (fst x), o)) (snd x)) m.
Definition neighs (d : data) (node : term) (preds : list pred) : option (list (pred * term) * list string) * data :=
  let (out, d) := match node with
                  | TSub s => data_outgoing d s (direct_ones preds)
                  | TLit _ => (Some ([], []), d)
                  end in
  match out with
  | None => (None, d)
  | Some (m, reminder) =>
      match inverse_ones preds with
      | [] => (Some (listed Direct m, reminder), d)
      | ps => let (r, d) := data_incoming d node ps in
              (option_map (fun m' => ((listed Direct m ++ listed Inverse m')%list, reminder)) r, d)
      end
  end.
(* engine.rs:668-673: closed shapes *)
Definition closed_fine (reminder : list string) : bool := match reminder with [] => true | _ => false end.

(* Requests one after the other; endpoints may come up and go down before each of them *)
Definition with_ups (ups : list bool) (d : data) : data :=
  {| primary := match primary d with Remote e => Remote {| e_graph := e_graph e; e_up := hd true ups; e_cache := e_cache e; e_asked := e_asked e |} | b => b end;
     used := List.map (fun x => {| e_graph := e_graph (fst x); e_up := snd x; e_cache := e_cache (fst x); e_asked := e_asked (fst x) |})
               (combine (used d) (tl ups ++ repeat true (List.length (used d)))%list) |}.
Definition request := (list bool * term * list pred)%type.
Definition serve (d : data) (r : request) : data := snd (neighs (with_ups (fst (fst r)) d) (snd (fst r)) (snd r)).
Definition after (d : data) (rs : list request) : data := fold_left serve rs d.
