(** Printing schemas in the compact syntax, and the schema that is read from a
    text.

    The program: [ShExCompactPrinter]
    (shex_ast/src/compact/shex_compact_printer.rs:211-921), without colours; the
    loop of [ShExParser::parse] that builds a schema
    (shex_ast/src/compact/shex_parser.rs:30-66); [deref_iri] on trees
    (shex_ast/src/ast: shape_expr.rs:178-212, shape.rs:101-154,
    triple_expr.rs:470-543, node_constraint.rs:152-170, sem_act.rs:27-40,
    annotation.rs:49-59, shape_expr_label.rs:56-71, triple_expr_label.rs:17-34) and
    on references (prefixmap/src/iri/iri_ref.rs:61-91).

    What is simplified here:
    - a document is a list of tokens and white space; how the lines are broken
      is left open (every break is white space);
    - the tokens of PsModel.  The text [{ m,n }] with white space inside is no
      range token; its comma is written [TWord ","], which no parser accepts;
    - IRIs are numbers.  [expand] puts a namespace and a local name together,
      [rebase] resolves an IRI against a base, [qualify] looks for a prefix
      (prefix_map.rs:363-396; C23 is about that function);
    - what stands inside literals, value sets, regular expressions and codes of
      actions is opaque: [lit_prints] says which literals are written without
      a panic, [print_values] gives the value set with its IRIs shortened, or a
      panic.  The program writes strings and patterns without escapes; nothing is
      said about that;
    - the label [START] and imports given as strings, which the parser does not
      produce, are left out. *)
From Coq Require Import String List ZArith Bool.
From Verif Require Import PsModel.
Import ListNotations.
Local Open Scope string_scope.
Local Open Scope list_scope.

(** * Schemas *)

(** [PrefixMap]: the prefixes in the order of insertion. *)
Definition prefixes := list (string * nat).

(** [Schema] (shex_ast/src/ast/schema.rs:14-49). *)
Record schema := mkSchema {
  sc_prefixes : option prefixes;
  sc_base : option nat;
  sc_imports : option (list iriref);
  sc_acts : option (list act);
  sc_start : option se;
  sc_shapes : option (list (bool * label * se)) }.

(** What stands in a document: white space and tokens. *)
Inductive piece := White | Tok (t : tok).
Definition doc := list piece.

(** The text of a document. *)
Fixpoint lay (w : bool) (d : doc) : text :=
  match d with
  | [] => []
  | White :: d => lay true d
  | Tok t :: d => (w, t) :: lay false d
  end.

(** [intersperse] of pretty. *)
Fixpoint intersperse (sep : doc) (l : list doc) : doc :=
  match l with
  | [] => []
  | [x] => x
  | x :: l' => x ++ sep ++ intersperse sep l'
  end.

(** A panic in one of the parts is a panic. *)
Fixpoint all_some {A} (l : list (option A)) : option (list A) :=
  match l with
  | [] => Some []
  | o :: l => obind o (fun x => obind (all_some l) (fun xs => Some (x :: xs)))
  end.
Definition join (a b : option doc) : option doc := obind a (fun x => obind b (fun y => Some (x ++ y))).
Definition opt_pp {A} (o : option A) (f : A -> option doc) : option doc :=
  match o with Some x => f x | None => Some [] end.

Section Printer.
(** [qualify_optional] with the prefix map of the schema: prefix and local
    name, or none; [RType], the IRI of rdf:type, is the number [type_iri]. *)
Variable qualify : nat -> option (string * option nat).
Variable type_iri : nat.
Variable lit_prints : nat -> bool.
Variable print_values : nat -> option nat.

(** [pp_iri_ref] (745-754), [pp_iri] (845-847). *)
Definition pp_iri (i : nat) : tok :=
  match qualify i with Some (p, l) => TName p l | None => TIri i end.
Definition pp_iri_ref (r : iriref) : tok :=
  match r with
  | RIri i => pp_iri i
  | RType => pp_iri type_iri
  | RName p l => TName p l
  end.
(** [pp_label] (649-655) and, behind an [@], [pp_reference] (657-659) with
    its token. *)
Definition pp_label (l : label) : tok :=
  match l with LIri r => pp_iri_ref r | LBnode b => TBnode b end.
Definition as_ref (t : tok) : label :=
  match t with
  | TName p l => LIri (RName p l)
  | TIri i => LIri (RIri i)
  | TBnode b => LBnode b
  | _ => LBnode 0
  end.
Definition pp_reference (l : label) : tok := TRef (as_ref (pp_label l)).

(** [pp_literal] (495-511), [pp_object_value] (488-493), [pp_annotation]
    (478-486), [pp_annotations] (352-366). *)
Definition pp_object_value (v : aval) : option doc :=
  match v with
  | VIri r => Some [Tok (pp_iri_ref r)]
  | VLit l => if lit_prints l then Some [Tok (TLit l)] else None
  end.
Definition pp_annotation (a : annot) : option doc :=
  join (Some [Tok (TP PSlashes); White; Tok (pp_iri_ref (fst a)); White]) (pp_object_value (snd a)).
Definition pp_annotations (l : list annot) : option doc :=
  obind (all_some (List.map pp_annotation l)) (fun ds => Some (White :: intersperse [White] ds)).

(** [pp_action] (793-805), [pp_actions] (780-791). *)
Definition pp_action (a : act) : doc :=
  [Tok (TP PPercent); Tok (pp_iri_ref (fst a));
   Tok match snd a with None => TP PPercent | Some c => TCode c end].
Definition pp_actions (l : list act) : option doc :=
  Some (intersperse [White] (List.map pp_action l) ++ [White]).

(** [pp_numericfacet] (581-608), [pp_stringfacet] (610-617), [pp_xsfacets]
    (561-579). *)
Definition pp_num (v : num) : tok := match v with NInt z => TInt z | NDec n => TNum n end.
Definition pp_xsfacet (f : facet) : doc :=
  match f with
  | FLen LLength n => [Tok (TWord "Length"); White; Tok (TInt n)]
  | FLen LMin n => [Tok (TWord "MinLength"); White; Tok (TInt n)]
  | FLen LMax n => [Tok (TWord "MaxLength"); White; Tok (TInt n)]
  | FPattern r => [Tok (TRegex r)]
  | FRange RMinInc v => [Tok (TWord "MinInclusive"); White; Tok (pp_num v)]
  | FRange RMaxInc v => [Tok (TWord "MaxInclusive"); White; Tok (pp_num v)]
  | FRange RMinExc v => [Tok (TWord "MinExclusive"); White; Tok (pp_num v)]
  | FRange RMaxExc v => [Tok (TWord "MaxExclusive"); White; Tok (pp_num v)]
  | FDigits DTotal n => [Tok (TWord "TotalDigits"); White; Tok (TInt n)]
  | FDigits DFraction n => [Tok (TWord "FractionDigits"); White; Tok (TInt n)]
  end.
Definition pp_xsfacets (l : list facet) : option doc :=
  Some (White :: intersperse [White] (List.map pp_xsfacet l)).

(** [pp_node_kind] (536-543), [pp_value_set] (545-559), [pp_node_constraint]
    (529-534). *)
Definition pp_node_kind (k : kind) : option doc :=
  Some [Tok (TWord match k with KIri => "IRI" | KBnode => "BNODE" | KNonLiteral => "NONLITERAL"
                           | KLiteral => "LITERAL" end)].
Definition pp_value_set (v : nat) : option doc :=
  obind (print_values v) (fun w => Some [White; Tok (TVals w)]).
Definition pp_node_constraint (c : nodec) : option doc :=
  match c with
  | mkNodec k d v fs =>
      join (opt_pp k pp_node_kind)
        (join (opt_pp d (fun d => Some [Tok (pp_iri_ref d)]))
          (join (opt_pp v pp_value_set) (opt_pp fs pp_xsfacets)))
  end.

(** [pp_extra] (464-476), [pp_extends] (334-350). *)
Definition pp_extra (ps : list iriref) : option doc :=
  Some ([Tok (TWord "EXTRA"); White] ++ intersperse [White] (List.map (fun p => [Tok (pp_iri_ref p)]) ps)).
Definition pp_extends (ls : list label) : option doc :=
  Some ([Tok (TWord "EXTENDS"); White]
        ++ intersperse [White] (List.map (fun l => [Tok (pp_reference l)]) ls) ++ [White]).

(** [pp_negated], [pp_inverse] (416-428), [pp_cardinality] (430-462). *)
Definition pp_flag (o : option bool) (c : punct) : doc :=
  match o with Some true => [Tok (TP c)] | _ => [] end.
Definition pp_cardinality (mn mx : option Z) : doc :=
  match mn, mx with
  | Some 1%Z, Some 1%Z => []
  | Some 0%Z, Some 1%Z => [White; Tok (TP PQuest)]
  | Some 0%Z, Some (-1)%Z => [White; Tok (TP PStar)]
  | Some 1%Z, Some (-1)%Z => [White; Tok (TP PPlus)]
  | Some 1%Z, None => [White; Tok (TP PPlus)]
  | Some m, Some k =>
      [White; Tok (TP PLBrace); White; Tok (TInt m); Tok (TWord ","); Tok (TInt k); White; Tok (TP PRBrace)]
  | Some m, None => [White; Tok (TRange m BOpen)]
  | None, Some (-1)%Z => [White; Tok (TP PStar)]
  | None, Some k => [White; Tok (TP PLBrace); Tok (TWord ","); Tok (TInt k); Tok (TP PRBrace)]
  | None, None => []
  end.

(** [pp_shape_expr] (273-306), [pp_shape] (312-332), [pp_triple_expr]
    (368-412): alternatives and inclusions run into [todo!()]; of a group only the
    parts are written. *)
Fixpoint pp_shape_expr (e : se) : option doc :=
  match e with
  | SRef l => Some [Tok (pp_reference l)]
  | SShape cl ex t ac an ext =>
      join (Some match cl with Some true => [Tok (TWord "CLOSED"); White] | _ => [] end)
      (join (opt_pp ex pp_extra)
      (join (opt_pp ext pp_extends)
      (join (Some [Tok (TP PLBrace); White])
      (join (match t with Some t => pp_triple_expr t | None => Some [] end)
      (join (Some [White; Tok (TP PRBrace)])
      (opt_pp an pp_annotations))))))
  | SNode c => pp_node_constraint c
  | SExternal => Some [Tok (TWord "EXTERNAL")]
  | SAnd l => obind (all_some (List.map pp_shape_expr l))
                (fun ds => Some (intersperse [White; Tok (TWord "AND"); White] ds))
  | SOr l => obind (all_some (List.map pp_shape_expr l))
                (fun ds => Some (intersperse [White; Tok (TWord "OR"); White] ds))
  | SNot e => join (Some [Tok (TWord "NOT"); White]) (pp_shape_expr e)
  end
with pp_triple_expr (t : te) : option doc :=
  match t with
  | EEach _ l _ _ _ _ => obind (all_some (List.map pp_triple_expr l))
                           (fun ds => Some (intersperse [Tok (TP PSemi); White] ds))
  | EOne _ _ _ _ _ _ => None
  | ETc _ ng iv p v mn mx ac an =>
      join (Some (pp_flag ng PBang ++ pp_flag iv PCaret ++ [Tok (pp_iri_ref p); White]))
      (join (match v with Some e => pp_shape_expr e | None => Some [Tok (TP PDot)] end)
      (join (Some (pp_cardinality mn mx))
      (join (opt_pp ac pp_actions) (opt_pp an pp_annotations))))
  | EInc _ => None
  end.

(** [pp_prefix_map] (817-838), [pp_base] (807-815), [pp_imports] (220-238),
    [pp_start] (261-271), [pp_shape_decl], [pp_shape_decls] (240-259). *)
Definition pp_prefix_map (pm : prefixes) : option doc :=
  Some (intersperse [White]
          (List.map (fun x => [Tok (TWord "prefix"); White; Tok (TName (fst x) None); White; Tok (TIri (snd x))]) pm)
        ++ [White]).
Definition pp_base (b : nat) : option doc := Some [Tok (TWord "base"); White; Tok (TIri b); White].
Definition pp_imports (l : list iriref) : option doc :=
  match l with
  | [] => Some []
  | _ => Some (intersperse [White]
                 (List.map (fun r => [Tok (TWord "import"); White; Tok (pp_iri_ref r)]) l) ++ [White])
  end.
Definition pp_start (e : se) : option doc :=
  join (Some [Tok (TWord "start"); White; Tok (TP PEqual); White]) (join (pp_shape_expr e) (Some [White])).
Definition pp_shape_decl (d : bool * label * se) : option doc :=
  let '(_, l, e) := d in join (Some [Tok (pp_label l); White]) (pp_shape_expr e).
Definition pp_shape_decls (l : list (bool * label * se)) : option doc :=
  obind (all_some (List.map pp_shape_decl l)) (fun ds => Some (intersperse [White] ds ++ [White])).

(** [pp_schema] (211-218). *)
Definition pp_schema (s : schema) : option doc :=
  join (opt_pp (sc_prefixes s) pp_prefix_map)
  (join (opt_pp (sc_base s) pp_base)
  (join (opt_pp (sc_imports s) pp_imports)
  (join (opt_pp (sc_acts s) pp_actions)
  (join (opt_pp (sc_start s) pp_start)
  (opt_pp (sc_shapes s) pp_shape_decls))))).

(** [pretty_print] (200-203). *)
Definition print (s : schema) : option text := obind (pp_schema s) (fun d => Some (lay false d)).
End Printer.

(** * Building the schema *)

Section Reader.
Variable expand : nat -> option nat -> nat.
Variable rebase : nat -> nat -> option nat.
Variable type_iri : nat.
Variable deref_values : option nat -> option prefixes -> nat -> option nat.
Variable deref_lit : option nat -> option prefixes -> nat -> option nat.

Section Deref.
Variable base : option nat.
Variable pm : option prefixes.

(** [PrefixMap::find]. *)
Fixpoint find_prefix (p : string) (pm : prefixes) : option nat :=
  match pm with
  | [] => None
  | (q, i) :: pm => if String.eqb p q then Some i else find_prefix p pm
  end.
(** [IriRef::deref_iri]. *)
Definition deref_iri (r : iriref) : option iriref :=
  match r with
  | RIri i => match base with None => Some (RIri i) | Some b => obind (rebase b i) (fun j => Some (RIri j)) end
  | RType => match base with
             | None => Some (RIri type_iri)
             | Some b => obind (rebase b type_iri) (fun j => Some (RIri j))
             end
  | RName p l => obind pm (fun pm => obind (find_prefix p pm) (fun i => Some (RIri (expand i l))))
  end.
Definition deref_label (l : label) : option label :=
  match l with LIri r => obind (deref_iri r) (fun r => Some (LIri r)) | LBnode b => Some (LBnode b) end.
Definition deref_opt {A} (f : A -> option A) (o : option A) : option (option A) :=
  match o with None => Some None | Some x => obind (f x) (fun y => Some (Some y)) end.
Definition deref_list {A} (f : A -> option A) (l : list A) : option (list A) := all_some (List.map f l).
Definition deref_act (a : act) : option act := obind (deref_iri (fst a)) (fun r => Some (r, snd a)).
Definition deref_annot (a : annot) : option annot :=
  obind (deref_iri (fst a)) (fun p =>
    obind (match snd a with
           | VIri r => obind (deref_iri r) (fun r => Some (VIri r))
           | VLit l => obind (deref_lit base pm l) (fun l => Some (VLit l))
           end) (fun o => Some (p, o))).
Definition deref_node (c : nodec) : option nodec :=
  match c with
  | mkNodec k d v fs =>
      obind (deref_opt deref_iri d) (fun d =>
      obind (deref_opt (deref_values base pm) v) (fun v => Some (mkNodec k d v fs)))
  end.
Fixpoint deref_se (e : se) : option se :=
  match e with
  | SExternal => Some SExternal
  | SAnd l => obind (all_some (List.map deref_se l)) (fun l => Some (SAnd l))
  | SOr l => obind (all_some (List.map deref_se l)) (fun l => Some (SOr l))
  | SNot e => obind (deref_se e) (fun e => Some (SNot e))
  | SShape cl ex t ac an ext =>
      obind (deref_opt (deref_list deref_iri) ex) (fun ex =>
      obind (match t with None => Some None | Some t => obind (deref_te t) (fun t => Some (Some t)) end) (fun t =>
      obind (deref_opt (deref_list deref_annot) an) (fun an =>
      obind (deref_opt (deref_list deref_act) ac) (fun ac =>
      obind (deref_opt (deref_list deref_label) ext) (fun ext =>
        Some (SShape cl ex t ac an ext))))))
  | SRef l => obind (deref_label l) (fun l => Some (SRef l))
  | SNode c => obind (deref_node c) (fun c => Some (SNode c))
  end
with deref_te (t : te) : option te :=
  match t with
  | EEach id l mn mx ac an =>
      obind (deref_opt deref_label id) (fun id =>
      obind (deref_opt (deref_list deref_annot) an) (fun an =>
      obind (deref_opt (deref_list deref_act) ac) (fun ac =>
      obind (all_some (List.map deref_te l)) (fun l => Some (EEach id l mn mx ac an)))))
  | EOne id l mn mx ac an =>
      obind (deref_opt deref_label id) (fun id =>
      obind (deref_opt (deref_list deref_annot) an) (fun an =>
      obind (deref_opt (deref_list deref_act) ac) (fun ac =>
      obind (all_some (List.map deref_te l)) (fun l => Some (EOne id l mn mx ac an)))))
  | ETc id ng iv p v mn mx ac an =>
      obind (deref_opt deref_label id) (fun id =>
      obind (deref_opt (deref_list deref_annot) an) (fun an =>
      obind (deref_opt (deref_list deref_act) ac) (fun ac =>
      obind (deref_iri p) (fun p =>
      obind (match v with None => Some None | Some e => obind (deref_se e) (fun e => Some (Some e)) end) (fun v =>
        Some (ETc id ng iv p v mn mx ac an))))))
  | EInc l => obind (deref_label l) (fun l => Some (EInc l))
  end.
End Deref.

(** [PrefixMap::add_prefix]: an insertion into an [IndexMap]. *)
Fixpoint insert_prefix (p : string) (i : nat) (pm : prefixes) : prefixes :=
  match pm with
  | [] => [(p, i)]
  | (q, j) :: pm => if String.eqb p q then (q, i) :: pm else (q, j) :: insert_prefix p i pm
  end.
(** [Schema::add_prefix] and [add_shape], [with_import] (schema.rs:103-172). *)
Definition push {A} (o : option (list A)) (x : A) : option (list A) :=
  match o with None => Some [x] | Some l => Some (l ++ [x]) end.

(** The loop of [ShExParser::parse] (37-64); [None] when a name cannot be
    resolved. *)
Definition add_stmt (s : schema) (x : stmt) : option schema :=
  match s with
  | mkSchema pm b im ac st sh =>
      match x with
      | IBase i => Some (mkSchema pm (Some i) im ac st sh)
      | IPrefix p i =>
          Some (mkSchema (Some (insert_prefix p i match pm with None => [] | Some pm => pm end)) b im ac st sh)
      | IStart e => obind (deref_se b pm e) (fun e => Some (mkSchema pm b im ac (Some e) sh))
      | IImport r => Some (mkSchema pm b (push im r) ac st sh)
      | IShape ab l e =>
          obind (deref_label b pm l) (fun l => obind (deref_se b pm e) (fun e =>
            Some (mkSchema pm b im ac st (push sh (ab, l, e)))))
      | IActions l => Some (mkSchema pm b im (Some l) st sh)
      end
  end.
Fixpoint build (s : schema) (l : list stmt) : option schema :=
  match l with
  | [] => Some s
  | x :: l => obind (add_stmt s x) (fun s => build s l)
  end.

(** [ShExParser::parse] (30-66): the schema, an error, a panic. *)
Inductive reading := Read (s : schema) | ReadError | ReadPanics | ReadUnfinished.
Definition read (n : nat) (base : option nat) (i : text) : reading :=
  match parse n i with
  | Statements l =>
      match build (mkSchema None base None None None None) l with
      | Some s => Read s
      | None => ReadError
      end
  | Error => ReadError
  | Panics => ReadPanics
  | Unfinished => ReadUnfinished
  end.
End Reader.
