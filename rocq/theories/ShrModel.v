(** Reading ShExR, schemas of shapes written as RDF.

    shex_ast/src/shexr/shexr_parser.rs lines 44-233; rudof_rdf/src/rdf_core/parser/rdf_node_parser: combinators.rs
    (Optional, Or, And, With, Then, List), constructors/typing.rs lines 66-85 and 130-170, constructors/validation.rs
    lines 69-97 and 159-178, constructors/primitive.rs lines 64-116; rudof_rdf/src/rdf_core/vocabs/shexr.rs.

    As in ReportModel a parser has the focus of the store as state, which stays where it is when a parser fails, and a set
    is walked in an unknown order [ord]. Simplifications. Texts are numbers, so are the IRIs of the vocabulary; literals are
    numbers of which [L] tells which are booleans. A triple expression is known by its node. There are no triple terms (the
    code panics on one as a label). The prefixes of the data are left out. The fuel bounds how deep expressions are nested;
    lists are bounded by the size of the graph (C56_lists_end). *)
From Coq Require Import List Bool NArith.
Import ListNotations.
From Verif Require Import PathModel ReportModel RdsModel.

(** vocabs/shexr.rs, numbered after those of RdsModel *)
Definition sx_schema : N := 100.
Definition sx_shapes : N := 101.
Definition sx_shape_decl : N := 102.
Definition sx_shape_expr : N := 103.
Definition sx_shape_exprs : N := 104.
Definition sx_shape_and : N := 105.
Definition sx_shape_or : N := 106.
Definition sx_shape_not : N := 107.
Definition sx_shape_external : N := 108.
Definition sx_shape : N := 109.
Definition sx_closed : N := 110.
Definition sx_extra : N := 111.
Definition sx_expression : N := 112.
Definition sx_node_constraint : N := 113.
Definition sx_node_kind : N := 114.
Definition sx_datatype : N := 115.
Definition sx_values : N := 116.
Definition sx_iri : N := 117.
Definition sx_bnode : N := 118.
Definition sx_literal : N := 119.
(** shexr.rs line 62 has "nonLiteral" *)
Definition sx_non_literal : N := 120.
Definition sx_abstract : N := 121.
Definition sx_start : N := 122.

(** What is read: shex_ast/src/ast/node_kind.rs, node_constraint.rs, shape.rs, shape_expr.rs, shape_decl.rs, schema.rs,
    without actions and annotations. Facets are pairs of a property and a value. *)
Inductive nkind := KIri | KBNode | KNonLiteral | KLiteral.
Record ncons := mkNC { n_kind : option nkind; n_datatype : option N; n_facets : list (N * term); n_values : option (list term) }.
Inductive sexpr :=
| SAnd (l : list sexpr)
| SOr (l : list sexpr)
| SNot (e : sexpr)
| SNode (n : ncons)
| SShape (closed : option bool) (extra : option (list N)) (expression : option term)
| SExternal
| SRef (label : term).
Record decl := mkDecl { d_label : term; d_abstract : bool; d_expr : sexpr }.
Record schema := mkSchema { s_start : option sexpr; s_shapes : option (list decl) }.

Section Read.
  Variable ord : list term -> list term.
  Variable L : lits.
  Variable g : graph.

  (** typing.rs: TypeParser, validation.rs 165-177 *)
  Definition has_type (c : N) : parser unit :=
    pbind (single_value ord g rdf_type) (fun t => if term_eqb t (TIri c) then pret tt else pfail).
  (** combinators.rs: List *)
  Definition listed {A} (k : parser A) : parser (list A) :=
    pbind (list_parser ord g (S (length g))) (fun l => pmap (fun t => pbind (set_focus t) (fun _ => k)) l).
  (** validation.rs: IsIriParser *)
  Definition is_iri (i : N) : parser unit :=
    pbind get_focus (fun t => match t with TIri j => if N.eqb j i then pret tt else pfail | _ => pfail end).
  (** primitive.rs: IriParser *)
  Definition iri_here : parser N := pbind get_focus (fun t => pres (to_iri t)).

  (** shexr_parser.rs 122-127 *)
  Definition closed : parser (option bool) := popt (single ord g (to_bool L) sx_closed).
  (** 109-120 *)
  Definition shape : parser sexpr :=
    pbind (has_type sx_shape) (fun _ => pbind closed (fun c => pret (SShape c None None))).
  (** 178-211 *)
  Definition nodekind : parser nkind :=
    porelse (porelse (porelse (pmapr (is_iri sx_iri) (fun _ => KIri)) (pmapr (is_iri sx_literal) (fun _ => KLiteral)))
                     (pmapr (is_iri sx_bnode) (fun _ => KBNode)))
            (pmapr (is_iri sx_non_literal) (fun _ => KNonLiteral)).
  (** 169-176 *)
  Definition parse_nodekind : parser (option nkind) :=
    popt (pbind (single_value ord g sx_node_kind) (fun t => pbind (set_focus t) (fun _ => nodekind))).
  (** 213-233 *)
  Definition parse_values : parser (option (list term)) :=
    popt (pbind (single_value ord g sx_values) (fun t => pbind (set_focus t) (fun _ => listed (pmapr iri_here TIri)))).
  (** 151-167 *)
  Definition node_constraint : parser sexpr :=
    pbind parse_nodekind (fun k => pbind parse_values (fun v => pret (SNode (mkNC k None [] v)))).
  (** 100-105 and 129-149 *)
  Fixpoint shape_expr (fuel : nat) : parser sexpr :=
    match fuel with
    | O => fun f => (OutOfFuel, f)
    | S fuel =>
        let several (c : N) (k : list sexpr -> sexpr) : parser sexpr :=
          pbind (has_type c) (fun _ =>
          pbind (single_value ord g sx_shape_exprs) (fun t =>
          pbind (set_focus t) (fun _ => pmapr (listed (shape_expr fuel)) k))) in
        porelse (porelse (porelse (several sx_shape_and SAnd) (several sx_shape_or SOr)) shape) node_constraint
    end.
  (** 68-80 *)
  Definition shape_label (t : term) : res term := match t with TLit _ => Err | _ => Ok t end.
  (** 82-97 *)
  Definition shape_decl (fuel : nat) : parser decl :=
    pbind get_focus (fun t =>
    pbind (pres (shape_label t)) (fun label =>
    pbind (single_value ord g sx_shape_expr) (fun n =>
    pbind (set_focus n) (fun _ =>
    pbind (shape_expr fuel) (fun e => pret (mkDecl label false e)))))).
  (** typing.rs 66-85 and 130-170; the graph is a set *)
  Definition instances (c : N) : list term :=
    match subjects_for g rdf_type (TIri c) with Ok l => ord l | _ => [] end.
  Definition single_instance (c : N) : parser term :=
    match instances c with [t] => pret t | _ => pfail end.
  (** 52-66 *)
  Definition parse_schema (fuel : nat) : parser schema :=
    pbind (single_instance sx_schema) (fun root =>
    pbind (set_focus root) (fun _ =>
    pbind (single_value ord g sx_shapes) (fun l =>
    pbind (set_focus l) (fun _ =>
    pmapr (listed (shape_decl fuel)) (fun ds => mkSchema None (Some ds)))))).
End Read.
