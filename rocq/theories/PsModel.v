(** Reading ShEx compact syntax.

    The program: the grammar written with parser combinators in
    shex_ast/src/compact/shex_grammar.rs:40-2487, the combinators of
    shex_ast/src/compact/grammar.rs:23-126 and the loop over the statements of
    a document in shex_ast/src/compact/shex_parser.rs:84-146.

    What is simplified here:
    - the text is a list of tokens instead of characters; each token says
      whether white space (or a comment) stands before it, because many of the
      parsers accept none.  The program has no separate lexer, and keywords are
      recognised wherever the text begins with their letters: [word] below
      takes letters off the front of a longer word or of the prefix of a name,
      as [tag_no_case] does.  Prefixes consist of letters;
    - IRIs, local names, blank node labels, regular expressions, literals,
      decimals, codes of semantic actions and whole value sets are single
      tokens with an opaque content; a reference [@label] and a range [{m,n}]
      are single tokens too;
    - the positions and messages of errors are left out;
    - the trees built are those before prefixes and relative IRIs are resolved
      (shex_parser.rs:43, 54-55). *)
From Coq Require Import String Ascii List ZArith Bool.
Import ListNotations.
Local Open Scope string_scope.
Local Open Scope list_scope.

(** * Tokens *)

Inductive punct :=
  PLBrace | PRBrace | PLPar | PRPar | PAmp | PDot | PSemi | PBar | PDollar | PBang | PCaret
| PStar | PPlus | PQuest | PSlashes | PPercent | PEqual.

(** [IriRef] (prefixmap/src/iri/iri_ref.rs:14-17): a prefixed name, an IRI in
    brackets, or the IRI of rdf:type that is written [a]. *)
Inductive iriref := RName (prefix : string) (local : option nat) | RIri (i : nat) | RType.

(** [ShapeExprLabel], [TripleExprLabel]: an IRI or a blank node. *)
Inductive label := LIri (r : iriref) | LBnode (b : nat).

(** What stands after the minimum in a range: [{m}], [{m,}], [{m,*}], [{m,n}]. *)
Inductive bound := BExact | BOpen | BStar | BMax (z : Z).

Inductive tok :=
| TWord (w : string)
| TName (prefix : string) (local : option nat)
| TIri (i : nat)
| TBnode (b : nat)
| TInt (z : Z)
| TNum (n : nat)
| TRegex (r : nat)
| TLit (l : nat)
| TVals (v : nat)
| TCode (c : nat)
| TRef (l : label)
| TRange (mn : Z) (rest : bound)
| TP (p : punct).

(** A token, and whether white space stands before it. *)
Definition text := list (bool * tok).

(** * Trees (shex_ast/src/ast) *)

Inductive kind := KIri | KBnode | KNonLiteral | KLiteral.
Inductive len := LLength | LMin | LMax.
Inductive range := RMinInc | RMaxInc | RMinExc | RMaxExc.
Inductive digs := DTotal | DFraction.
Inductive num := NInt (z : Z) | NDec (n : nat).
Inductive facet :=
| FLen (k : len) (n : Z)
| FPattern (r : nat)
| FRange (k : range) (v : num)
| FDigits (k : digs) (n : Z).

(** [NodeConstraint] (node_constraint.rs:15-28). *)
Inductive nodec := mkNodec (nkind : option kind) (datatype : option iriref)
  (values : option nat) (facets : option (list facet)).

(** An annotation: predicate and value (an IRI or a literal). *)
Inductive aval := VIri (r : iriref) | VLit (l : nat).
Definition annot := (iriref * aval)%type.
(** A semantic action: its name and its code, if any. *)
Definition act := (iriref * option nat)%type.

(** [ShapeExpr], [Shape] and [TripleExpr] (shape_expr.rs:38-61, shape.rs:9-28,
    triple_expr.rs:15-88). *)
Inductive se :=
| SOr (l : list se)
| SAnd (l : list se)
| SNot (e : se)
| SNode (c : nodec)
| SShape (closed : option bool) (extra : option (list iriref)) (expression : option te)
    (acts : option (list act)) (annots : option (list annot)) (extends : option (list label))
| SExternal
| SRef (l : label)
with te :=
| EEach (id : option label) (l : list te) (mn mx : option Z)
    (acts : option (list act)) (annots : option (list annot))
| EOne (id : option label) (l : list te) (mn mx : option Z)
    (acts : option (list act)) (annots : option (list annot))
| ETc (id : option label) (negated inverse : option bool) (p : iriref) (value : option se)
    (mn mx : option Z) (acts : option (list act)) (annots : option (list annot))
| EInc (l : label).

(** [ShExStatement] (grammar_structs.rs:6-29). *)
Inductive stmt :=
| IPrefix (prefix : string) (i : nat)
| IBase (i : nat)
| IImport (r : iriref)
| IActions (l : list act)
| IStart (e : se)
| IShape (abstract : bool) (l : label) (e : se).

(** * Results of parsers and combinators *)

(** nom's [IResult]: success with the rest of the text, an error (from which
    alternatives recover), a failure (from which they do not), a panic of the
    program; and [Fuel] when the bound on the steps is used up. *)
Inductive res (A : Type) := Ok (v : A) (i : text) | Err | Fail | Panic | Fuel.
Arguments Ok {A} v i.
Arguments Err {A}.
Arguments Fail {A}.
Arguments Panic {A}.
Arguments Fuel {A}.

Definition parser (A : Type) := text -> res A.

Definition bind {A B} (r : res A) (k : A -> text -> res B) : res B :=
  match r with
  | Ok v i => k v i
  | Err => Err
  | Fail => Fail
  | Panic => Panic
  | Fuel => Fuel
  end.

(** nom's [alt], [opt], [cut], [many0] and [many1]. *)
Definition alt {A} (p q : parser A) : parser A := fun i =>
  match p i with Err => q i | r => r end.
Definition opt {A} (p : parser A) : parser (option A) := fun i =>
  match p i with
  | Ok v r => Ok (Some v) r
  | Err => Ok None i
  | Fail => Fail
  | Panic => Panic
  | Fuel => Fuel
  end.
Definition cut {A} (p : parser A) : parser A := fun i =>
  match p i with Err => Fail | r => r end.
Fixpoint many0 {A} (n : nat) (p : parser A) : parser (list A) := fun i =>
  match n with
  | 0 => Fuel
  | S n' =>
      match p i with
      | Err => Ok [] i
      | Ok v r => bind (many0 n' p r) (fun vs r' => Ok (v :: vs) r')
      | Fail => Fail
      | Panic => Panic
      | Fuel => Fuel
      end
  end.
Definition many1 {A} (n : nat) (p : parser A) : parser (list A) := fun i =>
  bind (p i) (fun v r => bind (many0 n p r) (fun vs r' => Ok (v :: vs) r')).
Definition map {A B} (f : A -> B) (p : parser A) : parser B := fun i =>
  bind (p i) (fun v r => Ok (f v) r).

(** [tws0] (grammar.rs:87-91): white space and comments are passed over. *)
Definition tws0 (i : text) : text :=
  match i with (_, t) :: r => (false, t) :: r | [] => [] end.

(** nom's [tag] ([nc = false]) and [tag_no_case] ([nc = true]) on letters. *)
Definition lower (a : ascii) : ascii :=
  let n := nat_of_ascii a in
  if (65 <=? n)%nat && (n <=? 90)%nat then ascii_of_nat (n + 32) else a.
Definition same_char (nc : bool) (a b : ascii) : bool :=
  if nc then Ascii.eqb (lower a) (lower b) else Ascii.eqb a b.
Fixpoint cut_tag (nc : bool) (k s : string) : option string :=
  match k with
  | EmptyString => Some s
  | String a k' =>
      match s with
      | String b s' => if same_char nc a b then cut_tag nc k' s' else None
      | EmptyString => None
      end
  end.
Definition word (nc : bool) (k : string) : parser unit := fun i =>
  match i with
  | (false, TWord w) :: r =>
      match cut_tag nc k w with
      | Some EmptyString => Ok tt r
      | Some w' => Ok tt ((false, TWord w') :: r)
      | None => Err
      end
  | (false, TName p l) :: r =>
      match cut_tag nc k p with
      | Some p' => Ok tt ((false, TName p' l) :: r)
      | None => Err
      end
  | _ => Err
  end.

Definition punct_eqb (a b : punct) : bool :=
  match a, b with
  | PLBrace, PLBrace | PRBrace, PRBrace | PLPar, PLPar | PRPar, PRPar | PAmp, PAmp | PDot, PDot
  | PSemi, PSemi | PBar, PBar | PDollar, PDollar | PBang, PBang | PCaret, PCaret | PStar, PStar
  | PPlus, PPlus | PQuest, PQuest | PSlashes, PSlashes | PPercent, PPercent
  | PEqual, PEqual => true
  | _, _ => false
  end.
(** nom's [char], and [tag] on punctuation. *)
Definition char (c : punct) : parser unit := fun i =>
  match i with
  | (false, TP p) :: r => if punct_eqb c p then Ok tt r else Err
  | _ => Err
  end.

(** [token_tws] (grammar.rs:106-112), [token_tws_no_case] and
    [tag_no_case_tws] (114-128), [symbol] (shex_grammar.rs:2173-2178). *)
Definition token_tws (c : punct) : parser unit := fun i =>
  bind (char c (tws0 i)) (fun _ r => Ok tt (tws0 r)).
Definition word_tws (nc : bool) (k : string) : parser unit := fun i =>
  bind (word nc k (tws0 i)) (fun _ r => Ok tt (tws0 r)).
Definition symbol (k : string) : parser unit := word_tws true k.

(** [many1_sep] (shex_grammar.rs:2180-2223).  When what follows a separator
    cannot be read, the loop ends with success, and the separator is already
    consumed. *)
Fixpoint sep_loop {A} (n : nat) (p : parser A) (k : string) (vs : list A) : parser (list A) := fun i =>
  match n with
  | 0 => Fuel
  | S n' =>
      match symbol k (tws0 i) with
      | Ok _ i1 =>
          match p (tws0 i1) with
          | Ok v r => sep_loop n' p k (vs ++ [v]) r
          | Panic => Panic
          | Fuel => Fuel
          | Err | Fail => Ok vs (tws0 i1)
          end
      | _ => Ok vs (tws0 i)
      end
  end.
Definition many1_sep {A B} (n : nat) (p : parser A) (k : string) (maker : list A -> B) : parser B := fun i =>
  bind (p (tws0 i)) (fun v r => bind (sep_loop n p k [v] r) (fun vs r' => Ok (maker vs) r')).

(** * Terminals *)

(** [iri] (1731-1734), with [iri_ref_s] and [prefixed_name] (1736-1750). *)
Definition iri : parser iriref := fun i =>
  match i with
  | (false, TIri u) :: r => Ok (RIri u) r
  | (false, TName p l) :: r => Ok (RName p l) r
  | _ => Err
  end.
(** [iri_ref] (1947-1958). *)
Definition iri_ref : parser nat := fun i =>
  match i with (false, TIri u) :: r => Ok u r | _ => Err end.
(** [pname_ns] (2055-2059).  On a name with a local part it would leave the
    local part as the rest of the text; its only caller on names then fails. *)
Definition pname_ns : parser string := fun i =>
  match i with (false, TName p None) :: r => Ok p r | _ => Err end.
(** [rdf_type] (1616-1621), [predicate] (1466-1469). *)
Definition rdf_type : parser iriref := map (fun _ => RType) (word false "a").
Definition predicate : parser iriref := alt iri rdf_type.
(** [blank_node] (1773-1776). *)
Definition blank_node : parser nat := fun i =>
  match i with (false, TBnode b) :: r => Ok b r | _ => Err end.
(** [shape_expr_label], [triple_expr_label] (1477-1499). *)
Definition a_label : parser label := alt (map LIri iri) (map LBnode blank_node).
(** [shape_ref] (366-374, 1623-1634). *)
Definition shape_ref : parser label := fun i =>
  match i with (false, TRef l) :: r => Ok l r | _ => Err end.
(** [integer] (1817-1832). *)
Definition integer : parser Z := fun i =>
  match i with (false, TInt z) :: r => Ok z r | _ => Err end.
(** [regexp] (1636-1650). *)
Definition regexp : parser nat := fun i =>
  match i with (false, TRegex x) :: r => Ok x r | _ => Err end.
(** [raw_numeric_literal] (1235-1259). *)
Definition raw_numeric_literal : parser num := fun i =>
  match i with
  | (false, TNum x) :: r => Ok (NDec x) r
  | (false, TInt z) :: r => Ok (NInt z) r
  | _ => Err
  end.
(** [iri_or_literal] (1140-1146). *)
Definition iri_or_literal : parser aval := alt (map VIri iri) (fun i =>
  match i with (false, TLit l) :: r => Ok (VLit l) r | _ => Err end).

(** * Facets and node constraints *)

(** The casts [as usize] and [as i32] of 128 bit integers. *)
Definition as_usize (z : Z) : Z := (z mod 2 ^ 64)%Z.
Definition as_i32 (z : Z) : Z := ((z + 2 ^ 31) mod 2 ^ 32 - 2 ^ 31)%Z.

(** [pos_integer] (493-502). *)
Definition pos_integer : parser Z := fun i =>
  bind (integer i) (fun z r => if (z <? 0)%Z then Err else Ok (as_usize z) r).
(** [min_length], [max_length], [length], [string_length] (473-491). *)
Definition a_length (k : string) (l : len) : parser facet := fun i =>
  bind (word true k i) (fun _ r => map (FLen l) pos_integer (tws0 r)).
Definition string_length : parser facet :=
  alt (a_length "MINLENGTH" LMin) (alt (a_length "MAXLENGTH" LMax) (a_length "LENGTH" LLength)).
(** [string_facet] (464-471). *)
Definition string_facet : parser facet := alt string_length (map FPattern regexp).
(** [numeric_range] (543-552), [numeric_range_lit] (509-521). *)
Definition numeric_range : parser range :=
  alt (map (fun _ => RMinInc) (word_tws false "MININCLUSIVE"))
    (alt (map (fun _ => RMaxInc) (word_tws false "MAXINCLUSIVE"))
      (alt (map (fun _ => RMinExc) (word_tws false "MINEXCLUSIVE"))
        (map (fun _ => RMaxExc) (word_tws false "MAXEXCLUSIVE")))).
Definition numeric_range_lit : parser facet := fun i =>
  bind (numeric_range i) (fun k r => map (FRange k) (cut raw_numeric_literal) r).
(** [numeric_length] (535-541), [numeric_length_int] (523-533). *)
Definition numeric_length : parser digs :=
  alt (map (fun _ => DTotal) (word_tws false "TOTALDIGITS"))
    (map (fun _ => DFraction) (word_tws false "FRACTIONDIGITS")).
Definition numeric_length_int : parser facet := fun i =>
  bind (numeric_length i) (fun k r => map (fun z => FDigits k (as_usize z)) integer r).
(** [numeric_facet] (504-507), [xs_facet] (459-462). *)
Definition numeric_facet : parser facet := alt numeric_range_lit numeric_length_int.
Definition xs_facet : parser facet := alt string_facet numeric_facet.

(** [NodeConstraint::with_xsfacets] (node_constraint.rs:69-72). *)
Definition some_facets (l : list facet) : option (list facet) :=
  match l with [] => None | _ => Some l end.

(** [non_literal_kind] (449-457). *)
Definition non_literal_kind : parser kind :=
  alt (map (fun _ => KIri) (word_tws true "IRI"))
    (alt (map (fun _ => KBnode) (word_tws true "BNODE"))
      (map (fun _ => KNonLiteral) (word_tws true "NONLITERAL"))).
(** [non_lit_node_constraint] (428-447). *)
Definition non_lit_node_constraint (n : nat) : parser nodec :=
  alt (fun i => bind (non_literal_kind i) (fun k r =>
         map (fun fs => mkNodec (Some k) None None (some_facets fs)) (many0 n string_facet) r))
      (map (fun fs => mkNodec None None None (some_facets fs)) (many1 n string_facet)).

(** [lit_node_constraint] and its alternatives (376-426). *)
Definition literal_facets (n : nat) : parser nodec := fun i =>
  bind (word true "LITERAL" i) (fun _ r =>
    map (fun fs => mkNodec (Some KLiteral) None None (some_facets fs)) (many0 n xs_facet) (tws0 r)).
Definition datatype_facets (n : nat) : parser nodec := fun i =>
  bind (iri i) (fun d r =>
    map (fun fs => mkNodec None (Some d) None (some_facets fs)) (many0 n xs_facet) (tws0 r)).
(** [value_set] (915-924) begins and ends with [token_tws]. *)
Definition value_set : parser nat := fun i =>
  match tws0 i with (_, TVals v) :: r => Ok v (tws0 r) | _ => Err end.
Definition value_set_facets (n : nat) : parser nodec := fun i =>
  bind (value_set i) (fun v r =>
    map (fun fs => mkNodec None None (Some v) (some_facets fs)) (many0 n xs_facet) (tws0 r)).
Definition numeric_facets (n : nat) : parser nodec :=
  map (fun fs => mkNodec None None None (some_facets fs)) (many1 n numeric_facet).
Definition lit_node_constraint (n : nat) : parser nodec :=
  alt (literal_facets n) (alt (datatype_facets n) (alt (value_set_facets n) (numeric_facets n))).

(** * Annotations, semantic actions, cardinalities *)

(** [annotation] (1129-1138), [annotations] (639-641). *)
Definition annotation : parser annot := fun i =>
  bind (token_tws PSlashes i) (fun _ r =>
    bind (cut predicate r) (fun p r => map (fun o => (p, o)) (cut iri_or_literal) (tws0 r))).
Definition annotations (n : nat) : parser (list annot) := many0 n annotation.

(** [code_or_percent] (1170-1178), [code_decl] (1158-1168). *)
Definition code_or_percent : parser (option nat) := fun i =>
  match i with
  | (false, TCode c) :: r => Ok (Some c) r
  | (false, TP PLBrace) :: r => Fail
  | (false, TP PPercent) :: r => Ok None r
  | _ => Err
  end.
Definition code_decl : parser act := fun i =>
  bind (char PPercent i) (fun _ r =>
    bind (cut iri (tws0 r)) (fun a r =>
      bind (cut code_or_percent (tws0 r)) (fun c r => Ok (a, c) (tws0 r)))).
(** [semantic_actions] (1148-1156). *)
Definition some_list {A} (l : list A) : option (list A) :=
  match l with [] => None | _ => Some l end.
Definition semantic_actions (n : nat) : parser (option (list act)) :=
  map some_list (many0 n code_decl).

(** [repeat_range], [rest_range], [integer_or_star] (1580-1614): the bounds as
    [Cardinality] keeps them, [-1] standing for no upper bound. *)
Definition repeat_range : parser (Z * Z) := fun i =>
  match i with
  | (false, TRange mn b) :: r =>
      Ok (as_i32 mn, match b with
                     | BExact => as_i32 mn
                     | BOpen | BStar => (-1)%Z
                     | BMax z => as_i32 z
                     end) r
  | _ => Err
  end.
(** [cardinality] (892-913). *)
Definition cardinality : parser (Z * Z) :=
  alt (map (fun _ => (1, -1)%Z) (char PPlus))
    (alt (map (fun _ => (0, -1)%Z) (char PStar))
      (alt (map (fun _ => (0, 1)%Z) (char PQuest)) repeat_range)).

(** * Attributes set on triple expressions (triple_expr.rs:142-442)

    On an inclusion they panic. *)
Definition with_id (id : option label) (t : te) : option te :=
  match t with
  | EEach _ l mn mx a n => Some (EEach id l mn mx a n)
  | EOne _ l mn mx a n => Some (EOne id l mn mx a n)
  | ETc _ ng iv p v mn mx a n => Some (ETc id ng iv p v mn mx a n)
  | EInc _ => None
  end.
Definition with_card (c : Z * Z) (t : te) : option te :=
  let mn := Some (fst c) in let mx := Some (snd c) in
  match t with
  | EEach id l _ _ a n => Some (EEach id l mn mx a n)
  | EOne id l _ _ a n => Some (EOne id l mn mx a n)
  | ETc id ng iv p v _ _ a n => Some (ETc id ng iv p v mn mx a n)
  | EInc _ => None
  end.
Definition with_acts (a : option (list act)) (t : te) : option te :=
  match t with
  | EEach id l mn mx _ n => Some (EEach id l mn mx a n)
  | EOne id l mn mx _ n => Some (EOne id l mn mx a n)
  | ETc id ng iv p v mn mx _ n => Some (ETc id ng iv p v mn mx a n)
  | EInc _ => None
  end.
Definition with_annots (n : list annot) (t : te) : option te :=
  match t with
  | EEach id l mn mx a _ => Some (EEach id l mn mx a (Some n))
  | EOne id l mn mx a _ => Some (EOne id l mn mx a (Some n))
  | ETc id ng iv p v mn mx a _ => Some (ETc id ng iv p v mn mx a (Some n))
  | EInc _ => None
  end.
Definition obind {A B} (o : option A) (f : A -> option B) : option B :=
  match o with Some x => f x | None => None end.
Definition or_panic {A} (o : option A) (r : text) : res A :=
  match o with Some t => Ok t r | None => Panic end.

(** The attributes after a bracketed expression (803-813). *)
Definition with_all (c : option (Z * Z)) (n : list annot) (a : option (list act)) (t : te) : option te :=
  obind (match c with Some c => with_card c t | None => Some t end) (fun t =>
  obind (match n with [] => Some t | _ => with_annots n t end) (fun t =>
  with_acts a t)).

(** * Shape expressions and triple expressions *)

(** [Qualifier] (grammar_structs.rs:31-36). *)
Inductive qual := QClosed | QExtra (l : list iriref) | QExtends (l : label).

(** [extension], [closed], [extra_property_set], [qualifier], [qualifiers]
    (643-688). *)
Definition extension : parser qual := fun i =>
  bind (alt (fun i => bind (word_tws true "extends" i) (fun _ r => shape_ref r))
            (fun i => bind (token_tws PAmp i) (fun _ r => shape_ref r)) i)
       (fun l r => Ok (QExtends l) r).
Definition closed : parser qual := map (fun _ => QClosed) (word_tws false "CLOSED").
Definition extra_property_set (n : nat) : parser qual := fun i =>
  bind (word_tws false "EXTRA" i) (fun _ r =>
    map QExtra (cut (many1 n (fun i => bind (predicate i) (fun p r => Ok p (tws0 r))))) r).
Definition qualifier (n : nat) : parser qual := alt extension (alt closed (extra_property_set n)).
Definition qualifiers (n : nat) : parser (list qual) := many0 n (qualifier n).

Definition is_closed (q : qual) : bool := match q with QClosed => true | _ => false end.
Definition closed_of (qs : list qual) : option bool :=
  if existsb is_closed qs then Some true else None.
Definition extra_of (qs : list qual) : list iriref :=
  flat_map (fun q => match q with QExtra ps => ps | _ => [] end) qs.
Definition extends_of (qs : list qual) : list label :=
  flat_map (fun q => match q with QExtends l => [l] | _ => [] end) qs.

(** [ShapeExpr::any] (shape_expr.rs:134-136, 172-176). *)
Definition is_any (e : se) : bool :=
  match e with SShape None None None None None None => true | _ => false end.
Definition any : se := SShape None None None None None None.

(** [make_shape_or], [make_shape_and] (180-186, 198-204). *)
Definition make_or (l : list se) : se := match l with [e] => e | _ => SOr l end.
Definition make_and (l : list se) : se := match l with [e] => e | _ => SAnd l end.

Section Parsers.
(** The bound for loops, and the parsers for nested expressions: shape
    expressions ([true] for those inside triple constraints) and triple
    expressions. *)
Variable n : nat.
Variable rec_se : bool -> parser se.
Variable rec_te : parser te.

(** [maybe_triple_expr] (635-637). *)
Definition maybe_triple_expr : parser (option te) :=
  alt (map Some rec_te) (fun i => Ok None (tws0 i)).

(** [shape_definition] (554-606). *)
Definition shape_definition : parser se := fun i =>
  bind (qualifiers n i) (fun qs r =>
  bind (token_tws PLBrace r) (fun _ r =>
  bind (maybe_triple_expr r) (fun t r =>
  bind (token_tws PRBrace r) (fun _ r =>
  bind (annotations n r) (fun an r =>
  bind (semantic_actions n (tws0 r)) (fun ac r =>
    Ok (SShape (closed_of qs) (some_list (extra_of qs)) t ac (some_list an) (some_list (extends_of qs))) r)))))).

(** [inline_shape_definition] (608-633): an extension runs into [todo!()]. *)
Definition inline_shape_definition : parser se := fun i =>
  bind (qualifiers n i) (fun qs r =>
  bind (token_tws PLBrace r) (fun _ r =>
  bind (maybe_triple_expr r) (fun t r =>
  bind (token_tws PRBrace r) (fun _ r =>
    match extends_of qs with
    | [] => Ok (SShape (closed_of qs) (some_list (extra_of qs)) t None None None) r
    | _ => Panic
    end)))).

(** [shape_or_ref] (353-359), [inline_shape_or_ref] (361-364). *)
Definition shape_or_ref (inl : bool) : parser se :=
  alt (if inl then inline_shape_definition else shape_definition) (map SRef shape_ref).

(** [non_lit_opt_shape_or_ref] (252-274), [non_lit_inline_opt_shape_or_ref]
    (307-321).  The case of a conjunction after the node constraint does not
    arise: what follows is a shape or a reference. *)
Definition non_lit_opt_shape_or_ref (inl : bool) : parser se := fun i =>
  bind (non_lit_node_constraint n i) (fun c r =>
  bind (opt (shape_or_ref inl) (tws0 r)) (fun s r =>
    Ok (match s with None => SNode c | Some s => make_and [SNode c; s] end) r)).

(** [shape_opt_non_lit] (276-284), [inline_shape_or_ref_opt_non_lit]
    (323-331). *)
Definition shape_opt_non_lit (inl : bool) : parser se := fun i =>
  bind (shape_or_ref inl i) (fun s r =>
  bind (opt (non_lit_node_constraint n) r) (fun c r =>
    Ok (match c with None => s | Some c => SAnd [s; SNode c] end) r)).

(** [paren_shape_expr] (343-346), [dot] (348-351). *)
Definition paren_shape_expr : parser se := fun i =>
  bind (char PLPar i) (fun _ r =>
  bind (rec_se false (tws0 r)) (fun e r =>
  bind (char PRPar (tws0 r)) (fun _ r => Ok e r))).
Definition dot : parser se := fun i => bind (char PDot (tws0 i)) (fun _ r => Ok any r).

(** [shape_atom] (231-250), [inline_shape_atom] (286-305). *)
Definition shape_atom (inl : bool) : parser se :=
  alt (non_lit_opt_shape_or_ref inl)
    (alt (map SNode (lit_node_constraint n))
      (alt (shape_opt_non_lit inl) (alt paren_shape_expr dot))).

(** [shape_not] (211-219), [inline_shape_not] (221-229). *)
Definition shape_not (inl : bool) : parser se := fun i =>
  bind (opt (symbol "NOT") i) (fun m r =>
    map (fun e => match m with None => e | Some _ => SNot e end) (shape_atom inl) r).

(** [shape_and], [shape_or] and their inline forms (175-209). *)
Definition shape_and (inl : bool) : parser se := many1_sep n (shape_not inl) "AND" make_and.
Definition shape_or (inl : bool) : parser se := many1_sep n (shape_and inl) "OR" make_or.

(** [sense_flags] (856-890): negated, inverse. *)
Definition sense_flags : parser (option bool * option bool) :=
  alt (fun i => bind (token_tws PBang i) (fun _ r =>
         map (fun m => (Some true, match m with Some _ => Some true | None => None end)) (opt (token_tws PCaret)) r))
      (fun i => bind (token_tws PCaret i) (fun _ r =>
         map (fun m => (match m with Some _ => Some true | None => None end, Some true)) (opt (token_tws PBang)) r)).

(** [triple_constraint] (818-854). *)
Definition triple_constraint : parser te := fun i =>
  bind (opt sense_flags i) (fun fl r =>
  bind (predicate (tws0 r)) (fun p r =>
  bind (rec_se true (tws0 r)) (fun e r =>
  bind (opt cardinality (tws0 r)) (fun c r =>
  bind (annotations n (tws0 r)) (fun an r =>
  bind (semantic_actions n (tws0 r)) (fun ac r =>
    Ok (ETc None (match fl with Some (x, _) => x | None => None end)
          (match fl with Some (_, y) => y | None => None end) p
          (if is_any e then None else Some e)
          (match c with Some (mn, _) => Some mn | None => None end)
          (match c with Some (_, mx) => Some mx | None => None end)
          ac (some_list an)) r)))))).

(** [bracketed_triple_expr] (788-816). *)
Definition bracketed_triple_expr : parser te := fun i =>
  bind (token_tws PLPar i) (fun _ r =>
  bind (cut rec_te r) (fun t r =>
  bind (cut (token_tws PRPar) r) (fun _ r =>
  bind (cut (opt cardinality) r) (fun c r =>
  bind (annotations n (tws0 r)) (fun an r =>
  bind (semantic_actions n (tws0 r)) (fun ac r =>
    or_panic (with_all c an ac t) r)))))).

(** [include_] (1118-1127). *)
Definition include_ : parser te := fun i =>
  bind (token_tws PAmp i) (fun _ r => map EInc (cut a_label) r).

(** [triple_expr_label_opt] (781-786), [unary_triple_expr_opt1] (770-779),
    [unary_triple_expr] (761-768). *)
Definition triple_expr_label_opt : parser (option label) :=
  opt (fun i => bind (char PDollar i) (fun _ r => a_label (tws0 r))).
Definition unary_triple_expr : parser te :=
  alt include_ (fun i =>
    bind (triple_expr_label_opt i) (fun id r =>
    bind (alt bracketed_triple_expr triple_constraint (tws0 r)) (fun t r =>
      or_panic (with_id id t) r))).

(** [opt(char(';'))] (734, 741). *)
Definition opt_semi : parser unit := map (fun _ => tt) (opt (char PSemi)).

(** [single_element_group], [multi_element_group], [rest_unary_triple_expr]
    (732-759), [group_triple_expr] (727-730). *)
Definition single_element_group : parser te := fun i =>
  bind (unary_triple_expr i) (fun t r => bind (opt_semi (tws0 r)) (fun _ r => Ok t r)).
Definition multi_element_group : parser te := fun i =>
  bind (unary_triple_expr i) (fun t r =>
  bind (many1 n (fun i => bind (token_tws PSemi i) (fun _ r => unary_triple_expr r)) (tws0 r)) (fun ts r =>
  bind (opt_semi (tws0 r)) (fun _ r => Ok (EEach None (t :: ts) None None None None) r))).
Definition group_triple_expr : parser te := alt multi_element_group single_element_group.

(** [multi_element_one_of], [rest_group_triple_expr] (703-725),
    [one_of_triple_expr], [triple_expression] (690-701). *)
Definition multi_element_one_of : parser te := fun i =>
  bind (group_triple_expr i) (fun t r =>
  bind (many1 n (fun i => bind (token_tws PBar i) (fun _ r => group_triple_expr r)) (tws0 r)) (fun ts r =>
    Ok (EOne None (t :: ts) None None None None) r)).
Definition one_of_triple_expr : parser te := alt multi_element_one_of group_triple_expr.

End Parsers.

(** The recursion: each level of nesting takes one step of the bound. *)
Fixpoint shape_expression (n : nat) (inl : bool) : parser se := fun i =>
  match n with
  | 0 => Fuel
  | S m => shape_or m (shape_expression m) (triple_expression m) inl i
  end
with triple_expression (n : nat) : parser te := fun i =>
  match n with
  | 0 => Fuel
  | S m => one_of_triple_expr m (shape_expression m) (triple_expression m) i
  end.

(** * Statements *)

(** [directive] (47-92). *)
Definition base_decl : parser stmt := fun i =>
  bind (word true "BASE" i) (fun _ r => map IBase (cut iri_ref) (tws0 r)).
Definition prefix_decl : parser stmt := fun i =>
  bind (word true "PREFIX" i) (fun _ r =>
  bind (cut pname_ns (tws0 r)) (fun p r => map (IPrefix p) (cut iri_ref) (tws0 r))).
Definition import_decl : parser stmt := fun i =>
  bind (word true "IMPORT" i) (fun _ r => map IImport (cut iri) (tws0 r)).
Definition directive : parser stmt := alt base_decl (alt prefix_decl import_decl).

(** [start] (99-115), [start_actions] (117-121). *)
Definition start (n : nat) : parser stmt := fun i =>
  bind (word true "START" i) (fun _ r =>
  bind (cut (char PEqual) (tws0 r)) (fun _ r => map IStart (cut (shape_expression n true)) (tws0 r))).
Definition start_actions (n : nat) : parser stmt := map IActions (many1 n code_decl).

(** [external], [shape_expr_or_external], [shape_expr_decl] (128-163). *)
Definition external : parser se := fun i => bind (word true "EXTERNAL" i) (fun _ r => Ok SExternal r).
Definition shape_expr_or_external (n : nat) : parser se := alt (shape_expression n false) external.
Definition shape_expr_decl (n : nat) : parser stmt := fun i =>
  bind (opt (word_tws true "abstract") i) (fun ab r =>
  bind (a_label r) (fun l r =>
    map (IShape (match ab with Some _ => true | None => false end) l)
      (cut (shape_expr_or_external n)) (tws0 r))).

(** [shex_statement] (39-45). *)
Definition statement (n : nat) : parser stmt :=
  alt directive (alt (start n) (alt (shape_expr_decl n) (start_actions n))).

(** [StatementIterator] (shex_parser.rs:84-146) and the loop of
    [ShExParser::parse] (30-66): the statements, or the first error. *)
Inductive answer := Statements (l : list stmt) | Error | Panics | Unfinished.
Fixpoint statements (k n : nat) (acc : list stmt) (i : text) : answer :=
  match i with
  | [] => Statements acc
  | _ =>
      match k with
      | 0 => Unfinished
      | S k' =>
          match statement n i with
          | Ok s r => statements k' n (acc ++ [s]) (tws0 r)
          | Err | Fail => Error
          | Panic => Panics
          | Fuel => Unfinished
          end
      end
  end.
Definition parse (n : nat) (i : text) : answer := statements n n [] (tws0 i).
