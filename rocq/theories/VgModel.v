(* Pictures of RDF graphs.

   rudof_rdf/src/rdf_core/visualizer/visual_rdf_graph.rs:20-315 and 385-430, visual_rdf_node.rs:13-229, visual_rdf_edge.rs:10-45, utils/usage_count.rs;
   rdf_core/term/triple.rs:383-424.

   Simplifications.
   - The data are a graph in memory: a list of triples.  IRIs, labels and literals are texts.
   - Prefix maps and literals are a library: qualified names, the conversion of literals of oxrdf to those of rudof (literal.rs:1034-1100), how these are
     shown (literal.rs:239-258) and the conversion back (literal.rs:1102-1140).
   - Hash maps and sets are lists; their order is not used.
   - The text and style of diagrams are left out: a diagram is its boxes, its arrows and the arrows of its triple terms. *)
From Coq Require Import List String Bool Arith.
Import ListNotations.
Open Scope string_scope.

Record literal : Type := { lexical : string; datatype : string; lang : option string }.
Inductive subject : Type := SIri (i : string) | SBlank (b : string).
Inductive term : Type := TIri (i : string) | TBlank (b : string) | TLit (l : literal) | TTriple (s : subject) (p : string) (o : term).
Record triple : Type := { t_s : subject; t_p : string; t_o : term }.
Definition graph := list triple.
Definition subject_dec (a b : subject) : {a = b} + {a <> b}. Proof. decide equality; apply string_dec. Defined.
Definition literal_dec (a b : literal) : {a = b} + {a <> b}.
Proof. decide equality; try apply string_dec. destruct lang0 as [x|], lang1 as [y|]; [destruct (string_dec x y); [left|right]; congruence|right; discriminate|right; discriminate|left; reflexivity]. Defined.
Definition term_dec (a b : term) : {a = b} + {a <> b}. Proof. decide equality; try apply string_dec; [apply literal_dec|apply subject_dec]. Defined.
Definition triple_dec (a b : triple) : {a = b} + {a <> b}. Proof. decide equality; [apply term_dec|apply string_dec|apply subject_dec]. Defined.

Class lib : Type := {
  qualify : string -> string;
  concrete : Type;
  convert : literal -> option concrete;
  show : concrete -> string;
  back : concrete -> literal }.

(* Err: an error is returned; Panic: todo! *)
Inductive res (A : Type) : Type := Ok (a : A) | Err | Panic.
Arguments Ok {A} a. Arguments Err {A}. Arguments Panic {A}.

(* visual_rdf_node.rs:13-28, visual_rdf_edge.rs:10-18 *)
Inductive vnode : Type :=
| Reifies | VIri (label url : string) | VBlank (label : string) | VLit (value : string) | VPred (label url : string)
| NonAsserted (s p o : vnode) | Asserted (s p o : vnode).
Inductive vedge : Type := EIri (label url : string) | EReifies.
Definition vnode_dec (a b : vnode) : {a = b} + {a <> b}. Proof. decide equality; apply string_dec. Defined.
Definition vedge_dec (a b : vedge) : {a = b} + {a <> b}. Proof. decide equality; apply string_dec. Defined.
Definition edge_dec (a b : nat * vedge * nat) : {a = b} + {a <> b}.
Proof. destruct a as [[i e] j], b as [[k f] l]. destruct (Nat.eq_dec i k), (vedge_dec e f), (Nat.eq_dec j l); (left; congruence) || (right; congruence). Defined.
(* usage_count.rs *)
Record usage : Type := { as_pred : nat; as_subj : nat; as_obj : nat; in_pred : nat; in_subj : nat; in_obj : nat }.
Definition none : usage := {| as_pred := 0; as_subj := 0; as_obj := 0; in_pred := 0; in_subj := 0; in_obj := 0 |}.
Inductive role : Type := RSubject | RPredicate | RObject | InSubject | InPredicate | InObject.
Definition increment (r : role) (u : usage) : usage :=
  match r with
  | RSubject => {| as_pred := as_pred u; as_subj := S (as_subj u); as_obj := as_obj u; in_pred := in_pred u; in_subj := in_subj u; in_obj := in_obj u |}
  | RPredicate => {| as_pred := S (as_pred u); as_subj := as_subj u; as_obj := as_obj u; in_pred := in_pred u; in_subj := in_subj u; in_obj := in_obj u |}
  | RObject => {| as_pred := as_pred u; as_subj := as_subj u; as_obj := S (as_obj u); in_pred := in_pred u; in_subj := in_subj u; in_obj := in_obj u |}
  | InSubject => {| as_pred := as_pred u; as_subj := as_subj u; as_obj := as_obj u; in_pred := in_pred u; in_subj := S (in_subj u); in_obj := in_obj u |}
  | InPredicate => {| as_pred := as_pred u; as_subj := as_subj u; as_obj := as_obj u; in_pred := S (in_pred u); in_subj := in_subj u; in_obj := in_obj u |}
  | InObject => {| as_pred := as_pred u; as_subj := as_subj u; as_obj := as_obj u; in_pred := in_pred u; in_subj := in_subj u; in_obj := S (in_obj u) |}
  end.
Definition in_triple (u : usage) : bool := Nat.ltb 0 (in_pred u) || Nat.ltb 0 (in_subj u) || Nat.ltb 0 (in_obj u).

(* visual_rdf_graph.rs:22-33 *)
Record vgraph : Type := { nodes : list (vnode * nat); counter : nat; usages : list (vnode * usage); edges : list (nat * vedge * nat) }.
Definition empty : vgraph := {| nodes := []; counter := 0; usages := []; edges := [] |}.
Fixpoint id_in (n : vnode) (l : list (vnode * nat)) : option nat :=
  match l with [] => None | (m, i) :: l => if vnode_dec n m then Some i else id_in n l end.
Fixpoint usage_in (n : vnode) (l : list (vnode * usage)) : option usage :=
  match l with [] => None | (m, u) :: l => if vnode_dec n m then Some u else usage_in n l end.
Fixpoint count_in (r : role) (n : vnode) (l : list (vnode * usage)) : list (vnode * usage) :=
  match l with [] => [(n, increment r none)] | (m, u) :: l => if vnode_dec n m then (m, increment r u) :: l else (m, u) :: count_in r n l end.
(* visual_rdf_graph.rs:173-236 *)
Definition count (r : role) (n : vnode) (v : vgraph) : vgraph :=
  {| nodes := nodes v; counter := counter v; usages := count_in r n (usages v); edges := edges v |}.
(* visual_rdf_graph.rs:245-251 *)
Definition get_or_create (n : vnode) (v : vgraph) : nat * vgraph :=
  match id_in n (nodes v) with
  | Some i => (i, v)
  | None => (counter v, {| nodes := (nodes v ++ [(n, counter v)])%list; counter := S (counter v); usages := usages v; edges := edges v |})
  end.
Definition create (n : vnode) (v : vgraph) : vgraph := snd (get_or_create n v).
Definition add_edge (e : nat * vedge * nat) (v : vgraph) : vgraph :=
  {| nodes := nodes v; counter := counter v; usages := usages v; edges := if in_dec edge_dec e (edges v) then edges v else (edges v ++ [e])%list |}.

Definition reifies : string := "http://www.w3.org/1999/02/22-rdf-syntax-ns#reifies".
Section lib.
Context {L : lib}.
(* triple.rs:400-424 *)
Inductive object : Type := OIri (i : string) | OBlank (b : string) | OLit (c : concrete) | OTriple (s : subject) (p : string) (o : object).
Fixpoint as_object (t : term) : option object :=
  match t with
  | TIri i => Some (OIri i)
  | TBlank b => Some (OBlank b)
  | TLit l => option_map OLit (convert l)
  | TTriple s p o => option_map (OTriple s p) (as_object o)
  end.
(* triple.rs:383-392: triples are todo! *)
Definition as_term (o : object) : option term :=
  match o with OIri i => Some (TIri i) | OBlank b => Some (TBlank b) | OLit c => Some (TLit (back c)) | OTriple _ _ _ => None end.
(* visual_rdf_node.rs:42-54; to_string of an IRI of oxrdf has angle brackets *)
Definition from_predicate (p : string) : vnode := if String.eqb p reifies then Reifies else VPred (qualify p) ("<" ++ p ++ ">").
(* visual_rdf_edge.rs:20-32 *)
Definition from_iri (p : string) : vedge := if String.eqb p reifies then EReifies else EIri (qualify p) p.
Definition from_subject (s : subject) : vnode := match s with SIri i => VIri (qualify i) i | SBlank b => VBlank b end.
(* visual_rdf_node.rs:194-211, without triples *)
Definition leaf (o : object) : res vnode :=
  match o with OIri i => Ok (VIri (qualify i) i) | OBlank b => Ok (VBlank b) | OLit c => Ok (VLit (show c)) | OTriple _ _ _ => Panic end.
(* visual_rdf_graph.rs:134-171; the object is a term that is not a triple *)
Definition create_triple_term (g : graph) (s : subject) (p : string) (o : term) (v : vgraph) : res (vnode * vgraph) :=
  let sn := from_subject s in
  let v := create sn (count InSubject sn v) in
  let pn := from_predicate p in
  let v := create pn (count InPredicate pn v) in
  match as_object o with
  | None => Err
  | Some o' =>
      match leaf o' with
      | Ok on =>
          let v := create on (count InObject on v) in
          Ok (if in_dec triple_dec {| t_s := s; t_p := p; t_o := o |} g then Asserted sn pn on else NonAsserted sn pn on, v)
      | Err => Err
      | Panic => Panic
      end
  end.
(* visual_rdf_node.rs:170-229 *)
Definition object_node (g : graph) (o : object) (v : vgraph) : res (vnode * vgraph) :=
  match o with
  | OTriple s p o => match as_term o with None => Panic | Some o => create_triple_term g s p o v end
  | _ => match leaf o with Ok n => Ok (n, v) | Err => Err | Panic => Panic end
  end.
Definition from_term (g : graph) (t : term) (v : vgraph) : res (vnode * vgraph) :=
  match as_object t with None => Err | Some o => object_node g o v end.
(* visual_rdf_graph.rs:97-118 *)
Definition create_triple (g : graph) (t : triple) (v : vgraph) : res vgraph :=
  let sn := from_subject (t_s t) in
  let (si, v) := get_or_create sn (count RSubject sn v) in
  let v := count RPredicate (from_predicate (t_p t)) v in
  let e := from_iri (t_p t) in
  match from_term g (t_o t) v with
  | Ok (on, v) =>
      let (oi, v) := get_or_create on (count RObject on v) in
      Ok (add_edge (si, e, oi) v)
  | Err => Err
  | Panic => Panic
  end.
(* visual_rdf_graph.rs:62-82 *)
Fixpoint create_all (g ts : graph) (v : vgraph) : res vgraph :=
  match ts with
  | [] => Ok v
  | t :: ts => match create_triple g t v with Ok v => create_all g ts v | Err => Err | Panic => Panic end
  end.
Definition from_rdf (g : graph) : res vgraph := create_all g g empty.
End lib.
(* visual_rdf_graph.rs:272-301 and 304-315, visual_rdf_node.rs:123-166, visual_rdf_graph.rs:400-430 *)
Definition show_node (v : vgraph) (n : vnode) : bool :=
  match n with VPred _ _ | Reifies => match usage_in n (usages v) with Some u => in_triple u | None => false end | _ => true end.
Inductive part : Type := PSubject | PPredicate | PObject.
Record diagram : Type := { boxes : list (nat * vnode); arrows : list (nat * vedge * nat); parts : list (nat * part * nat) }.
Definition parts_of (v : vgraph) (x : vnode * nat) : option (list (nat * part * nat)) :=
  match fst x with
  | NonAsserted s p o | Asserted s p o =>
      match id_in s (nodes v), id_in p (nodes v), id_in o (nodes v) with
      | Some i, Some j, Some k => Some [(snd x, PSubject, i); (snd x, PPredicate, j); (snd x, PObject, k)]
      | _, _, _ => None
      end
  | _ => Some []
  end.
Fixpoint all_parts (v : vgraph) (l : list (vnode * nat)) : option (list (nat * part * nat)) :=
  match l with
  | [] => Some []
  | x :: l => match parts_of v x, all_parts v l with Some a, Some b => Some (a ++ b)%list | _, _ => None end
  end.
Definition as_plantuml (v : vgraph) : option diagram :=
  match all_parts v (nodes v) with
  | None => None
  | Some ps => Some {| boxes := List.map (fun x => (snd x, fst x)) (filter (fun x => show_node v (fst x)) (nodes v)); arrows := edges v; parts := ps |}
  end.
