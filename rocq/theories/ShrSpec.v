(** What a graph says about a schema, after the vocabulary of ShEx (http://www.w3.org/ns/shex) and the schema of ShExR in
    the specification of ShEx. Every node says one thing: a property that takes one value has one. *)
From Coq Require Import List Bool NArith Permutation.
Import ListNotations.
From Verif Require Import PathModel ReportModel ReportSpec RdsModel ShrModel.

(** the vocabulary has sx:nonliteral *)
Definition sx_nonliteral : N := 130.
Definition kind_iri (k : nkind) : N :=
  match k with KIri => sx_iri | KBNode => sx_bnode | KNonLiteral => sx_nonliteral | KLiteral => sx_literal end.
(** the properties that are facets *)
Definition sx_facets : list N := [131; 132; 133; 134; 135; 136; 137; 138; 139; 140; 141]%N.

Section Says.
  Variable L : lits.
  Variable g : graph.
  Definition maybe {A} (R : A -> term -> Prop) (s : term) (p : N) (o : option A) : Prop :=
    match o with None => none g s p | Some a => exists t, only g s p t /\ R a t end.
  Definition typed (s : term) (c : N) : Prop := only g s rdf_type (TIri c).
  Definition boolean (b : bool) (t : term) : Prop := exists n, t = TLit n /\ l_bool L n = Some b.
  Definition all (s : term) (p : N) (o : option (list N)) : Prop :=
    match o with None => none g s p | Some l => l <> [] /\ forall t, In (s, p, t) g <-> exists i, In i l /\ t = TIri i end.

  (** the node stands for the shape expression *)
  Inductive denotes : term -> sexpr -> Prop :=
  | de_and s l ts es : typed s sx_shape_and -> only g s sx_shape_exprs l -> chain g l ts -> Forall2 denotes ts es -> denotes s (SAnd es)
  | de_or s l ts es : typed s sx_shape_or -> only g s sx_shape_exprs l -> chain g l ts -> Forall2 denotes ts es -> denotes s (SOr es)
  | de_not s t e : typed s sx_shape_not -> only g s sx_shape_expr t -> denotes t e -> denotes s (SNot e)
  | de_node s k d fs v : typed s sx_node_constraint ->
      maybe (fun k t => t = TIri (kind_iri k)) s sx_node_kind k -> maybe (fun i t => t = TIri i) s sx_datatype d ->
      (forall p t, In p sx_facets -> (In (s, p, t) g <-> In (p, t) fs)) -> (forall p t, In (p, t) fs -> In p sx_facets) ->
      maybe (fun ts l => chain g l ts) s sx_values v -> denotes s (SNode (mkNC k d fs v))
  | de_shape s c x e : typed s sx_shape -> maybe boolean s sx_closed c -> all s sx_extra x ->
      maybe (fun t t' => t = t') s sx_expression e -> denotes s (SShape c x e)
  | de_external s : typed s sx_shape_external -> denotes s SExternal
  | de_ref s : typed s sx_shape_decl -> denotes s (SRef s).

  Definition declares (t : term) (d : decl) : Prop :=
    d_label d = t /\ (forall n, t <> TLit n) /\
    (none g t sx_abstract /\ d_abstract d = false \/ exists v, only g t sx_abstract v /\ boolean (d_abstract d) v) /\
    exists n, only g t sx_shape_expr n /\ denotes n (d_expr d).

  Definition describes (root : term) (s : schema) : Prop :=
    (forall t, In (t, rdf_type, TIri sx_schema) g <-> t = root) /\ maybe (fun e t => denotes t e) root sx_start (s_start s) /\
    maybe (fun ds l => exists ts, chain g l ts /\ Forall2 declares ts ds) root sx_shapes (s_shapes s).
End Says.

(** What the reader knows: conjunctions, disjunctions, shapes without anything inside, and node constraints that are a kind
    or a set of IRIs, but not both. *)
Inductive simple : sexpr -> Prop :=
| si_and l : Forall simple l -> simple (SAnd l)
| si_or l : Forall simple l -> simple (SOr l)
| si_kind k : k <> KNonLiteral -> simple (SNode (mkNC (Some k) None [] None))
| si_values is : simple (SNode (mkNC None None [] (Some (map TIri is))))
| si_any : simple (SNode (mkNC None None [] None))
| si_shape c : simple (SShape c None None).
Definition simple_schema (s : schema) : Prop :=
  s_start s = None /\ exists ds, s_shapes s = Some ds /\ Forall (fun d => d_abstract d = false /\ simple (d_expr d)) ds.

(** What the reader says at all: the same, with any kind and with kinds and values together *)
Inductive poor : sexpr -> Prop :=
| po_and l : Forall poor l -> poor (SAnd l)
| po_or l : Forall poor l -> poor (SOr l)
| po_node k v : match v with Some l => exists is, l = map TIri is | None => True end -> poor (SNode (mkNC k None [] v))
| po_shape c : poor (SShape c None None).

(** the nodes that reading an expression may visit after this one *)
Inductive cell (g : graph) (l : term) : term -> Prop :=
| cell_first : cell g l l
| cell_next c r : cell g l c -> In (c, rdf_rest, r) g -> cell g l r.
Definition visits (g : graph) (s t : term) : Prop :=
  exists l c, In (s, sx_shape_exprs, l) g /\ cell g l c /\ (t = c \/ In (c, rdf_first, t) g).
(** nothing is inside itself *)
Definition ranked (g : graph) : Prop := exists rank : term -> nat, forall s t, visits g s t -> rank t < rank s.

(** What is left of an expression when it is read *)
Definition nothing : sexpr := SNode (mkNC None None [] None).
Definition only_iris (l : list term) : bool := forallb (fun t => match t with TIri _ => true | _ => false end) l.
Definition what_is_left_of_node (n : ncons) : ncons :=
  match n_kind n with
  | Some KNonLiteral => mkNC None None [] None
  | Some k => mkNC (Some k) None [] None
  | None => mkNC None None [] (match n_values n with Some l => if only_iris l then Some l else None | None => None end)
  end.
Fixpoint what_is_left (e : sexpr) : sexpr :=
  match e with
  | SAnd l => SAnd (map what_is_left l)
  | SOr l => SOr (map what_is_left l)
  | SNode n => SNode (what_is_left_of_node n)
  | SShape c _ _ => SShape c None None
  | SNot _ | SExternal | SRef _ => nothing
  end.
Definition left_of_decl (d : decl) : decl := mkDecl (d_label d) false (what_is_left (d_expr d)).

(** kinds and values are said of node constraints only, and nothing is said of the kinds *)
Definition tidy (g : graph) : Prop :=
  (forall s c, typed g s c -> c <> sx_node_constraint -> none g s sx_node_kind /\ none g s sx_values) /\
  (forall k, none g (TIri (kind_iri k)) sx_values).
