(* Diagrams of ShEx schemas.

   shapes_converter/src/shex_to_uml/shex2uml.rs:58-545 (convert and what it calls), shapes_converter/src/shex_to_uml/uml.rs:78-261
   (nodes, components, links, and what is drawn).

   Simplifications.
   - The label of a shape or of a predicate that annotations give (find_annotation) is part of the schema, and so are the texts of
     node kinds and facets.
   - The prefix map is a library: resolve may fail, qualify does not.
   - Hash maps are lists of pairs.  The text of diagrams is left out; what is drawn is not. *)
From Coq Require Import List String Bool Arith ZArith.
Import ListNotations.
Open Scope string_scope.

Class lib : Type := { qualify : string -> string; resolve : string -> string -> option string }.
Inductive iriref : Type := Iri (i : string) | Prefixed (p l : string).
Inductive slabel : Type := LIri (r : iriref) | LBlank (b : string) | LStart.
Record name : Type := { n_str : string; n_href : option string; n_label : option string }.
Inductive value : Type := VIri (r : iriref) | VOther.
Record node_constraint : Type := { nc_kind : option string; nc_datatype : option iriref; nc_facets : option (list string); nc_values : option (list value) }.
Inductive sexpr : Type :=
| SShape | SExternal | SRef (l : slabel) | SNode (nc : node_constraint) | SOr (l : list sexpr) | SAnd (l : list sexpr) | SNot (e : sexpr).
Record tc : Type := { tc_inverse : bool; tc_negated : bool; tc_pred : iriref; tc_label : option string; tc_value : option sexpr; tc_min : option Z; tc_max : option Z }.
Inductive texpr : Type := EachOf (l : list texpr) (min max : option Z) | OneOf (l : list texpr) (min max : option Z) | TC (c : tc) | TRef (l : string).
Record shape : Type := { sh_label : option string; sh_extends : list slabel; sh_expr : option texpr }.
(* a declaration: a shape or another shape expression *)
Record decl : Type := { d_id : slabel; d_expr : option shape }.
Definition schema := list decl.

(* value_constraint.rs, uml_cardinality.rs *)
Inductive constraint : Type :=
| Any | ValueSet (l : list name) | Datatype (n : name) | Facet (l : list name) | Kind (n : name) | NoConstraint
| CAnd (l : list constraint) | COr (l : list constraint) | CNot (c : constraint).
Inductive card : Type := OneOne | Star | Plus | Optional | Range (m n : Z) | Fixed (m : Z).
Record entry : Type := { e_name : name; e_constraint : constraint; e_card : card }.
Record class : Type := { c_name : name; c_entries : list entry; c_extends : list nat }.
Inductive op : Type := Or | And | Not.
Inductive component : Type := Class_ (c : class) | Logic (o : op) (nodes : list nat).
Inductive ulabel : Type := LClass (s : string) | LLogic (o : op) (n : nat).
Record link : Type := { l_source : nat; l_target : nat; l_name : name; l_card : card }.
Record uml : Type := {
  labels : list (ulabel * nat); counter : nat; logical : list (op * list nat * nat); lcounter : nat;
  components : list (nat * component); links : list link; extends : list (nat * nat); outgoing : list (nat * nat); incoming : list (nat * nat) }.
Definition empty : uml :=
  {| labels := []; counter := 0; logical := []; lcounter := 0; components := []; links := []; extends := []; outgoing := []; incoming := [] |}.

Definition op_dec (a b : op) : {a = b} + {a <> b}. Proof. decide equality. Defined.
Definition ulabel_dec (a b : ulabel) : {a = b} + {a <> b}. Proof. decide equality; [apply string_dec|apply Nat.eq_dec|apply op_dec]. Defined.
Definition nodes_dec (a b : list nat) : {a = b} + {a <> b} := list_eq_dec Nat.eq_dec a b.

(* the result of a step: a value, an error, or a panic (todo!, unwrap) *)
Inductive res (A : Type) : Type := Ok (a : A) | Err | Panic.
Arguments Ok {A}. Arguments Err {A}. Arguments Panic {A}.
Definition bind {A B} (x : res A) (f : A -> res B) : res B := match x with Ok a => f a | Err => Err | Panic => Panic end.
Notation "'do' x <- e ; f" := (bind e (fun x => f)) (at level 200, x pattern, e at level 100, f at level 200).

(* uml.rs:130-141 *)
Fixpoint find_label (l : ulabel) (ls : list (ulabel * nat)) : option nat :=
  match ls with [] => None | (k, n) :: ls => if ulabel_dec l k then Some n else find_label l ls end.
Definition get_node_adding (l : ulabel) (u : uml) : nat * bool * uml :=
  match find_label l (labels u) with
  | Some n => (n, true, u)
  | None => (S (counter u), false,
      {| labels := (l, S (counter u)) :: labels u; counter := S (counter u); logical := logical u; lcounter := lcounter u;
         components := components u; links := links u; extends := extends u; outgoing := outgoing u; incoming := incoming u |})
  end.
(* uml.rs:115-127 *)
Fixpoint find_logical (o : op) (ns : list nat) (ls : list (op * list nat * nat)) : option nat :=
  match ls with [] => None | (p, ms, i) :: ls => if op_dec o p then if nodes_dec ns ms then Some i else find_logical o ns ls else find_logical o ns ls end.
Definition get_logical (o : op) (ns : list nat) (u : uml) : nat * uml :=
  match find_logical o ns (logical u) with
  | Some i => (i, u)
  | None => (S (lcounter u),
      {| labels := labels u; counter := counter u; logical := (o, ns, S (lcounter u)) :: logical u; lcounter := S (lcounter u);
         components := components u; links := links u; extends := extends u; outgoing := outgoing u; incoming := incoming u |})
  end.
(* uml.rs:148-168 *)
Fixpoint get_component (n : nat) (cs : list (nat * component)) : option component :=
  match cs with [] => None | (m, c) :: cs => if Nat.eqb n m then Some c else get_component n cs end.
Definition with_components (cs : list (nat * component)) (u : uml) : uml :=
  {| labels := labels u; counter := counter u; logical := logical u; lcounter := lcounter u; components := cs;
     links := links u; extends := extends u; outgoing := outgoing u; incoming := incoming u |}.
Definition add_component (n : nat) (c : component) (u : uml) : res uml :=
  match get_component n (components u) with Some _ => Err | None => Ok (with_components ((n, c) :: components u) u) end.
Fixpoint replace_component (n : nat) (c : component) (cs : list (nat * component)) : list (nat * component) :=
  match cs with [] => [(n, c)] | (m, d) :: cs => if Nat.eqb n m then (n, c) :: cs else (m, d) :: replace_component n c cs end.
Definition update_component (n : nat) (c : component) (u : uml) : uml := with_components (replace_component n c (components u)) u.
(* uml.rs:181-215 *)
Definition make_link (s t : nat) (n : name) (c : card) (u : uml) : uml :=
  {| labels := labels u; counter := counter u; logical := logical u; lcounter := lcounter u; components := components u;
     links := (links u ++ [{| l_source := s; l_target := t; l_name := n; l_card := c |}])%list; extends := extends u;
     outgoing := (s, t) :: outgoing u; incoming := (t, s) :: incoming u |}.
Definition add_link (s : nat) (l : ulabel) (n : name) (c : card) (u : uml) : uml :=
  let '(t, _, u) := get_node_adding l u in make_link s t n c u.
(* uml.rs:217-226 *)
Definition add_extends (s t : nat) (u : uml) : uml :=
  {| labels := labels u; counter := counter u; logical := logical u; lcounter := lcounter u; components := components u;
     links := links u; extends := (extends u ++ [(s, t)])%list; outgoing := outgoing u; incoming := incoming u |}.

Section convert.
Context {L : lib}.

(* shex2uml.rs:468-486; labels are added by mk_name, 503-513 *)
Definition iri_name (r : iriref) (label : option string) : res name :=
  match r with
  | Iri i => Ok {| n_str := qualify i; n_href := Some i; n_label := label |}
  | Prefixed p l => match resolve p l with Some i => Ok {| n_str := p ++ ":" ++ l; n_href := Some i; n_label := label |} | None => Err end
  end.
Definition plain (s : string) : name := {| n_str := s; n_href := None; n_label := None |}.
(* shex2uml.rs:72-78 *)
Definition label_name (l : slabel) : res name :=
  match l with LIri r => iri_name r None | LBlank b => Ok (plain ("_:" ++ b)) | LStart => Ok (plain "start") end.
(* shex2uml.rs:488-501 *)
Definition mk_card (min max : option Z) : res card :=
  let min := match min with Some n => n | None => 1%Z end in
  let max := match max with Some n => n | None => 1%Z end in
  if Z.eqb min 1 && Z.eqb max 1 then Ok OneOne
  else if Z.eqb min 0 && Z.eqb max (-1) then Ok Star
  else if Z.eqb min 0 && Z.eqb max 1 then Ok Optional
  else if Z.eqb min 1 && Z.eqb max (-1) then Ok Plus
  else if Z.leb 0 min && Z.ltb min max then Ok (Fixed min)
  else if Z.leb 0 min && Z.ltb min max then Ok (Range min max)
  else Err.
Fixpoint each {A B} (f : A -> res B) (l : list A) : res (list B) :=
  match l with [] => Ok [] | a :: l => do b <- f a; do bs <- each f l; Ok (b :: bs) end.
(* shex2uml.rs:410-421 *)
Fixpoint all_references (l : list sexpr) : option (list slabel) :=
  match l with [] => Some [] | SRef r :: l => option_map (cons r) (all_references l) | _ => None end.
(* shex2uml.rs:423-438; the names are unwrapped *)
Fixpoint all_datatypes (l : list sexpr) : res (option (list name)) :=
  match l with
  | [] => Ok (Some [])
  | SNode nc :: l => match nc_datatype nc with
                     | Some dt => match iri_name dt None with
                                  | Ok n => do r <- all_datatypes l; Ok (option_map (cons n) r)
                                  | _ => Panic
                                  end
                     | None => Ok None
                     end
  | _ => Ok None
  end.
(* shex2uml.rs:440-466 *)
Definition value_name (v : value) : res name := match v with VIri r => iri_name r None | VOther => Err end.
(* shex2uml.rs:549-603, 652-665 *)
Definition mk_and (l : list (option constraint)) : constraint :=
  match flat_map (fun x => match x with Some c => [c] | None => [] end) l with [] => Any | [c] => c | cs => CAnd cs end.
Definition constraint_of (nc : node_constraint) : res constraint :=
  do dt <- match nc_datatype nc with Some r => do n <- iri_name r None; Ok (Some (Datatype n)) | None => Ok None end;
  do vs <- match nc_values nc with Some vs => do ns <- each value_name vs; Ok (Some (ValueSet ns)) | None => Ok None end;
  Ok (mk_and [option_map (fun k => Kind (plain k)) (nc_kind nc); dt; option_map (fun fs => Facet (List.map plain fs)) (nc_facets nc); vs]).
(* a BTreeSet *)
Fixpoint insert (n : nat) (l : list nat) : list nat :=
  match l with [] => [n] | m :: l' => if Nat.ltb n m then n :: l else if Nat.eqb n m then l else m :: insert n l' end.
(* shex2uml.rs:336-382 *)
Fixpoint reference_nodes (ls : list slabel) (nodes : list nat) (u : uml) : res (list nat * uml) :=
  match ls with
  | [] => Ok (nodes, u)
  | l :: ls => do n <- label_name l; let '(i, _, u) := get_node_adding (LClass (n_str n)) u in reference_nodes ls (insert i nodes) u
  end.
Definition references (node : nat) (pred : name) (c : card) (ls : list slabel) (o : op) (u : uml) : res uml :=
  do (nodes, u) <- reference_nodes ls [] u;
  do _ <- match o with Not => if Nat.eqb (List.length nodes) 1 then Ok tt else Err | _ => Ok tt end;
  let (i, u) := get_logical o nodes u in
  let '(k, _, u) := get_node_adding (LLogic o i) u in
  do u <- match get_component k (components u) with
          | Some _ => Ok u
          | None => do u <- add_component k (Logic o nodes) u; Ok (fold_left (fun u n => make_link k n (plain "member") OneOne u) nodes u)
          end;
  Ok (make_link node k pred c u).
(* shex2uml.rs:218-334 and 384-407 *)
Definition value_constraint (e : sexpr) (node : nat) (pred : name) (c : card) (u : uml) : res (constraint * uml) :=
  match e with
  | SOr l => match all_references l with
             | Some ls => do u <- references node pred c ls Or u; Ok (NoConstraint, u)
             | None => do r <- all_datatypes l; match r with Some ns => Ok (COr (List.map Datatype ns), u) | None => Err end
             end
  | SAnd l => match all_references l with
              | Some ls => do u <- references node pred c ls And u; Ok (NoConstraint, u)
              | None => do r <- all_datatypes l; match r with Some ns => Ok (CAnd (List.map Datatype ns), u) | None => Err end
              end
  | SNot e => match all_references [e] with
              | Some ls => do u <- references node pred c ls Not u; Ok (NoConstraint, u)
              | None => do r <- all_datatypes [e]; Err (* 316-322: the constraint is made and dropped *)
              end
  | SNode nc => do v <- constraint_of nc; Ok (v, u)
  | SRef (LIri r) => do n <- iri_name r None; Ok (NoConstraint, add_link node (LClass (n_str n)) pred c u)
  | SRef _ | SShape | SExternal => Err
  end.
(* shex2uml.rs:136-163 and 187-209 *)
Definition triple_constraint (t : tc) (node : nat) (es : list entry) (u : uml) : res (list entry * uml) :=
  do pred <- iri_name (tc_pred t) (tc_label t);
  do c <- mk_card (tc_min t) (tc_max t);
  do (v, u) <- match tc_value t with Some e => value_constraint e node pred c u | None => Ok (Any, u) end;
  match v with NoConstraint => Ok (es, u) | _ => Ok ((es ++ [{| e_name := pred; e_constraint := v; e_card := c |}])%list, u) end.
Fixpoint triple_constraints (l : list texpr) (node : nat) (es : list entry) (u : uml) : res (list entry * uml) :=
  match l with
  | [] => Ok (es, u)
  | TC t :: l => do (es, u) <- triple_constraint t node es u; triple_constraints l node es u
  | _ => Panic
  end.
(* shex2uml.rs:107-127 *)
Fixpoint extended (ls : list slabel) (node : nat) (xs : list nat) (u : uml) : res (list nat * uml) :=
  match ls with
  | [] => Ok (xs, u)
  | l :: ls =>
      do n <- label_name l;
      let '(x, found, u) := get_node_adding (LClass (n_str n)) u in
      let u := add_extends node x u in
      do u <- if found : bool then Ok u else add_component x (Class_ {| c_name := n; c_entries := []; c_extends := [] |}) u;
      extended ls node (xs ++ [x])%list u
  end.
(* shex2uml.rs:101-216 *)
Definition shape_component (n : name) (s : shape) (node : nat) (u : uml) : res (component * uml) :=
  let n := match sh_label s with Some l => {| n_str := n_str n; n_href := n_href n; n_label := Some l |} | None => n end in
  do (xs, u) <- extended (sh_extends s) node [] u;
  do (es, u) <- match sh_expr s with
                | None => Ok ([], u)
                | Some (EachOf l _ _) => triple_constraints l node [] u
                | Some (TC t) => triple_constraint t node [] u
                | Some _ => Panic
                end;
  Ok (Class_ {| c_name := n; c_entries := es; c_extends := xs |}, u).
(* shex2uml.rs:58-70 *)
Definition convert_decl (d : decl) (u : uml) : res uml :=
  do n <- label_name (d_id d);
  let '(node, _, u) := get_node_adding (LClass (n_str n)) u in
  match d_expr d with
  | None => Err
  | Some s => do (c, u) <- shape_component n s node u; Ok (update_component node c u)
  end.
Fixpoint convert (ds : schema) (u : uml) : res uml :=
  match ds with [] => Ok u | d :: ds => do u <- convert_decl d u; convert ds u end.
End convert.

(* uml.rs:234-292: what is drawn, of all nodes or around one *)
Record drawing : Type := { dr_components : list (nat * component); dr_links : list link; dr_extends : list (nat * nat) }.
Definition mem_pair (a b : nat) (l : list (nat * nat)) : bool := existsb (fun x => Nat.eqb (fst x) a && Nat.eqb (snd x) b) l.
Definition draw_all (u : uml) : drawing := {| dr_components := components u; dr_links := links u; dr_extends := extends u |}.
Definition draw_around (t : nat) (u : uml) : drawing :=
  {| dr_components := filter (fun x => Nat.eqb (fst x) t || mem_pair (fst x) t (extends u) || mem_pair t (fst x) (extends u) ||
                                       mem_pair t (fst x) (outgoing u) || mem_pair t (fst x) (incoming u)) (components u);
     dr_links := filter (fun l => Nat.eqb (l_source l) t || Nat.eqb (l_target l) t) (links u);
     dr_extends := filter (fun x => Nat.eqb (fst x) t || Nat.eqb (snd x) t) (extends u) |}.
