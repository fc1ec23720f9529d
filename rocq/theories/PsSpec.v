(** The grammar of the compact syntax (ShEx 2.1, section 6, productions [1] to
    [61]; the extensions of shapes are those of ShEx 2.2): concrete syntax
    trees, the tokens they stand for and the trees they mean.

    Nothing here refers to the parsers of PsModel; only the tokens and the
    trees are shared. *)
From Coq Require Import String List ZArith Bool.
From Verif Require Import PsModel.
Import ListNotations.
Local Open Scope string_scope.
Local Open Scope list_scope.

(** * Concrete syntax *)

(** [24] litNodeConstraint and [25] nonLitNodeConstraint. *)
Inductive cnode :=
| CKind (k : kind) (fs : list facet)
| CStrings (fs : list facet)
| CDatatype (d : iriref) (fs : list facet)
| CValues (v : nat) (fs : list facet)
| CNumerics (fs : list facet).

(** Qualifiers of a shape; an extension is written [EXTENDS] or [&]. *)
Inductive cqual :=
| CClosed
| CExtra (ps : list iriref)
| CExtends (amp : bool) (l : label).

(** [45] senseFlags. *)
Inductive csense := SPlain | SNegated | SInverse | SNegInv | SInvNeg.

(** [46] cardinality. *)
Inductive ccard := CStar | CPlus | COptional | CRange (mn : Z) (b : bound).

(** Shape expressions ([10] to [20]): a disjunction, a conjunction and a group
    are lists; [CSub] is a shape or a reference standing first in an atom.
    Triple expressions ([36] to [45]): [CGroup l true] ends with a semicolon. *)
Inductive cse :=
| COr (l : list cse)
| CAnd (l : list cse)
| CNot (c : cse)
| CNonLit (c : cnode) (s : option csr)
| CLit (c : cnode)
| CSub (s : csr) (c : option cnode)
| CPar (c : cse)
| CDot
with csr :=
| CDef (qs : list cqual) (t : option cte) (an : list annot) (ac : list act)
| CRf (l : label)
with cte :=
| COne (l : list cte)
| CGroup (l : list cte) (semi : bool)
| CInc (l : label)
| CBr (id : option label) (t : cte) (c : option ccard) (an : list annot) (ac : list act)
| CTc (id : option label) (s : csense) (p : iriref) (v : cse) (c : option ccard)
    (an : list annot) (ac : list act).

(** * The grammar *)

Definition is_string (f : facet) : Prop :=
  match f with FLen _ _ | FPattern _ => True | _ => False end.
Definition is_numeric (f : facet) : Prop := ~ is_string f.

Definition non_lit (c : cnode) : Prop :=
  match c with
  | CKind KLiteral _ => False
  | CKind _ fs => Forall is_string fs
  | CStrings fs => fs <> [] /\ Forall is_string fs
  | _ => False
  end.
Definition lit (c : cnode) : Prop :=
  match c with
  | CKind KLiteral _ => True
  | CDatatype d _ => d <> RType
  | CValues _ _ => True
  | CNumerics fs => fs <> [] /\ Forall is_numeric fs
  | _ => False
  end.

Definition label_ok (l : label) : Prop := l <> LIri RType.
Definition annot_ok (a : annot) : Prop := snd a <> VIri RType.
Definition act_ok (a : act) : Prop := fst a <> RType.
Definition qual_ok (q : cqual) : Prop :=
  match q with CExtra ps => ps <> [] | _ => True end.

(** Which expressions may stand where: operands of a conjunction bind more
    tightly than operands of a disjunction. *)
Definition level (c : cse) : nat :=
  match c with COr _ => 3 | CAnd _ => 2 | CNot _ => 1 | _ => 0 end.
Definition tlevel (c : cte) : nat :=
  match c with COne _ => 2 | CGroup _ _ => 1 | _ => 0 end.

Definition when {A} (P : A -> Prop) (o : option A) : Prop :=
  match o with Some x => P x | None => True end.

(** The sentences; [inl]: inside a triple constraint, where shapes have
    neither annotations nor semantic actions. *)
Fixpoint shape_syntax (inl : bool) (c : cse) : Prop :=
  match c with
  | COr l => 2 <= length l /\ (fix all l := match l with
                              | [] => True
                              | c :: l => (level c <= 2 /\ shape_syntax inl c) /\ all l end) l
  | CAnd l => 2 <= length l /\ (fix all l := match l with
                              | [] => True
                              | c :: l => (level c <= 1 /\ shape_syntax inl c) /\ all l end) l
  | CNot c => level c = 0 /\ shape_syntax inl c
  | CNonLit c s => non_lit c /\ match s with Some s => sub_syntax inl s | None => True end
  | CLit c => lit c
  | CSub s c => sub_syntax inl s /\ when non_lit c
  | CPar c => shape_syntax false c
  | CDot => True
  end
with sub_syntax (inl : bool) (s : csr) : Prop :=
  match s with
  | CDef qs t an ac =>
      Forall qual_ok qs /\ match t with Some t => triple_syntax t | None => True end
      /\ Forall annot_ok an /\ Forall act_ok ac
      /\ (inl = true -> an = [] /\ ac = [])
  | CRf l => True
  end
with triple_syntax (c : cte) : Prop :=
  match c with
  | COne l => 2 <= length l /\ (fix all l := match l with
                               | [] => True
                               | c :: l => (tlevel c <= 1 /\ triple_syntax c) /\ all l end) l
  | CGroup l semi => (2 <= length l \/ (length l = 1 /\ semi = true)) /\ (fix all l := match l with
                               | [] => True
                               | c :: l => (tlevel c = 0 /\ triple_syntax c) /\ all l end) l
  | CInc l => label_ok l
  | CBr id t _ an ac => when label_ok id /\ triple_syntax t /\ Forall annot_ok an /\ Forall act_ok ac
  | CTc id _ _ v _ an ac => when label_ok id /\ shape_syntax true v /\ Forall annot_ok an /\ Forall act_ok ac
  end.

(** Statements and documents: [1] shexDoc ::= directive* ((notStartAction |
    startActions) statement)? statement*; [None] for an external shape. *)
Inductive cstmt :=
| CPrefix (p : string) (i : nat)
| CBase (i : nat)
| CImport (r : iriref)
| CActions (l : list act)
| CStart (c : cse)
| CShape (abstract : bool) (l : label) (c : option cse).

Definition stmt_syntax (s : cstmt) : Prop :=
  match s with
  | CPrefix _ _ | CBase _ => True
  | CImport r => r <> RType
  | CActions l => l <> [] /\ Forall act_ok l
  | CStart c => shape_syntax true c
  | CShape _ l c => label_ok l /\ when (shape_syntax false) c
  end.
Definition is_directive (s : cstmt) : Prop :=
  match s with CPrefix _ _ | CBase _ | CImport _ => True | _ => False end.
Definition is_actions (s : cstmt) : Prop := match s with CActions _ => True | _ => False end.
Definition doc_syntax (d : list cstmt) : Prop :=
  Forall stmt_syntax d /\
  exists before after, d = before ++ after /\ Forall is_directive before
    /\ match after with [] => True | _ :: l => Forall (fun s => ~ is_actions s) l end.

(** * The tokens of a sentence *)

Definition iri_tok (r : iriref) : tok :=
  match r with RName p l => TName p l | RIri u => TIri u | RType => TWord "a" end.
Definition label_tok (l : label) : tok :=
  match l with LIri r => iri_tok r | LBnode b => TBnode b end.
Definition num_tok (v : num) : tok := match v with NInt z => TInt z | NDec d => TNum d end.

Definition facet_toks (f : facet) : list tok :=
  match f with
  | FLen LLength n => [TWord "LENGTH"; TInt n]
  | FLen LMin n => [TWord "MINLENGTH"; TInt n]
  | FLen LMax n => [TWord "MAXLENGTH"; TInt n]
  | FPattern r => [TRegex r]
  | FRange RMinInc v => [TWord "MININCLUSIVE"; num_tok v]
  | FRange RMinExc v => [TWord "MINEXCLUSIVE"; num_tok v]
  | FRange RMaxInc v => [TWord "MAXINCLUSIVE"; num_tok v]
  | FRange RMaxExc v => [TWord "MAXEXCLUSIVE"; num_tok v]
  | FDigits DTotal n => [TWord "TOTALDIGITS"; TInt n]
  | FDigits DFraction n => [TWord "FRACTIONDIGITS"; TInt n]
  end.
Definition kind_word (k : kind) : string :=
  match k with KIri => "IRI" | KBnode => "BNODE" | KNonLiteral => "NONLITERAL" | KLiteral => "LITERAL" end.
Definition node_toks (c : cnode) : list tok :=
  match c with
  | CKind k fs => TWord (kind_word k) :: flat_map facet_toks fs
  | CStrings fs | CNumerics fs => flat_map facet_toks fs
  | CDatatype d fs => iri_tok d :: flat_map facet_toks fs
  | CValues v fs => TVals v :: flat_map facet_toks fs
  end.
Definition qual_toks (q : cqual) : list tok :=
  match q with
  | CClosed => [TWord "CLOSED"]
  | CExtra ps => TWord "EXTRA" :: List.map iri_tok ps
  | CExtends true l => [TP PAmp; TRef l]
  | CExtends false l => [TWord "EXTENDS"; TRef l]
  end.
Definition annot_toks (a : annot) : list tok :=
  [TP PSlashes; iri_tok (fst a); match snd a with VIri r => iri_tok r | VLit l => TLit l end].
Definition act_toks (a : act) : list tok :=
  [TP PPercent; iri_tok (fst a); match snd a with Some c => TCode c | None => TP PPercent end].
Definition card_toks (c : option ccard) : list tok :=
  match c with
  | None => []
  | Some CStar => [TP PStar]
  | Some CPlus => [TP PPlus]
  | Some COptional => [TP PQuest]
  | Some (CRange mn b) => [TRange mn b]
  end.
Definition sense_toks (s : csense) : list tok :=
  match s with
  | SPlain => []
  | SNegated => [TP PBang]
  | SInverse => [TP PCaret]
  | SNegInv => [TP PBang; TP PCaret]
  | SInvNeg => [TP PCaret; TP PBang]
  end.
Definition id_toks (id : option label) : list tok :=
  match id with Some l => [TP PDollar; label_tok l] | None => [] end.

(** A list of sentences with a token between them. *)
Fixpoint between (t : tok) (l : list (list tok)) : list tok :=
  match l with
  | [] => []
  | [x] => x
  | x :: l' => x ++ t :: between t l'
  end.

Fixpoint se_toks (c : cse) : list tok :=
  match c with
  | COr l => between (TWord "OR") (List.map se_toks l)
  | CAnd l => between (TWord "AND") (List.map se_toks l)
  | CNot c => TWord "NOT" :: se_toks c
  | CNonLit c s => node_toks c ++ match s with Some s => sr_toks s | None => [] end
  | CLit c => node_toks c
  | CSub s c => sr_toks s ++ match c with Some c => node_toks c | None => [] end
  | CPar c => TP PLPar :: se_toks c ++ [TP PRPar]
  | CDot => [TP PDot]
  end
with sr_toks (s : csr) : list tok :=
  match s with
  | CDef qs t an ac =>
      flat_map qual_toks qs ++ TP PLBrace :: match t with Some t => te_toks t | None => [] end
        ++ TP PRBrace :: flat_map annot_toks an ++ flat_map act_toks ac
  | CRf l => [TRef l]
  end
with te_toks (c : cte) : list tok :=
  match c with
  | COne l => between (TP PBar) (List.map te_toks l)
  | CGroup l semi => between (TP PSemi) (List.map te_toks l) ++ (if semi then [TP PSemi] else [])
  | CInc l => [TP PAmp; label_tok l]
  | CBr id t c an ac =>
      id_toks id ++ TP PLPar :: te_toks t ++ TP PRPar :: card_toks c
        ++ flat_map annot_toks an ++ flat_map act_toks ac
  | CTc id s p v c an ac =>
      id_toks id ++ sense_toks s ++ iri_tok p :: se_toks v ++ card_toks c
        ++ flat_map annot_toks an ++ flat_map act_toks ac
  end.

Definition stmt_toks (s : cstmt) : list tok :=
  match s with
  | CPrefix p i => [TWord "PREFIX"; TName p None; TIri i]
  | CBase i => [TWord "BASE"; TIri i]
  | CImport r => [TWord "IMPORT"; iri_tok r]
  | CActions l => flat_map act_toks l
  | CStart c => TWord "START" :: TP PEqual :: se_toks c
  | CShape ab l c => (if ab then [TWord "ABSTRACT"] else []) ++ label_tok l ::
                     match c with Some c => se_toks c | None => [TWord "EXTERNAL"] end
  end.
Definition doc_toks (d : list cstmt) : list tok := flat_map stmt_toks d.

(** * The trees a sentence means *)

Definition some {A} (l : list A) : option (list A) := match l with [] => None | _ => Some l end.

Definition node_tree (c : cnode) : nodec :=
  match c with
  | CKind k fs => mkNodec (Some k) None None (some fs)
  | CStrings fs | CNumerics fs => mkNodec None None None (some fs)
  | CDatatype d fs => mkNodec None (Some d) None (some fs)
  | CValues v fs => mkNodec None None (Some v) (some fs)
  end.
Definition closed_tree (qs : list cqual) : option bool :=
  if existsb (fun q => match q with CClosed => true | _ => false end) qs then Some true else None.
Definition extra_tree (qs : list cqual) : list iriref :=
  flat_map (fun q => match q with CExtra ps => ps | _ => [] end) qs.
Definition extends_tree (qs : list cqual) : list label :=
  flat_map (fun q => match q with CExtends _ l => [l] | _ => [] end) qs.
(** The least and the greatest number; -1 for no bound. *)
Definition card_tree (c : option ccard) : option Z * option Z :=
  match c with
  | None => (None, None)
  | Some CStar => (Some 0, Some (-1))%Z
  | Some CPlus => (Some 1, Some (-1))%Z
  | Some COptional => (Some 0, Some 1)%Z
  | Some (CRange mn BExact) => (Some mn, Some mn)
  | Some (CRange mn (BOpen | BStar)) => (Some mn, Some (-1)%Z)
  | Some (CRange mn (BMax mx)) => (Some mn, Some mx)
  end.
Definition negated_tree (s : csense) : option bool :=
  match s with SNegated | SNegInv | SInvNeg => Some true | _ => None end.
Definition inverse_tree (s : csense) : option bool :=
  match s with SInverse | SNegInv | SInvNeg => Some true | _ => None end.

(** The shape without any condition, which [.] stands for. *)
Definition unconstrained (e : se) : Prop := e = SShape None None None None None None.

(** A triple expression on which no attribute is set yet. *)
Definition bare (t : te) : bool :=
  match t with
  | EEach None _ None None None None => true
  | EOne None _ None None None None => true
  | ETc None _ _ _ _ None None None None => true
  | _ => false
  end.
(** The attributes of a bracketed expression: they are those of the
    expression in the brackets if that has none; otherwise they are those of a
    group around it. *)
Definition attach (id : option label) (mn mx : option Z) (ac : option (list act))
    (an : option (list annot)) (t : te) : te :=
  match t with
  | EEach None l None None None None => EEach id l mn mx ac an
  | EOne None l None None None None => EOne id l mn mx ac an
  | ETc None ng iv p v None None None None => ETc id ng iv p v mn mx ac an
  | _ => match id, mn, ac, an with
         | None, None, None, None => t
         | _, _, _, _ => EEach id [t] mn mx ac an
         end
  end.

Fixpoint se_tree (c : cse) : se :=
  match c with
  | COr l => SOr (List.map se_tree l)
  | CAnd l => SAnd (List.map se_tree l)
  | CNot c => SNot (se_tree c)
  | CNonLit c None => SNode (node_tree c)
  | CNonLit c (Some s) => SAnd [SNode (node_tree c); sr_tree s]
  | CLit c => SNode (node_tree c)
  | CSub s None => sr_tree s
  | CSub s (Some c) => SAnd [sr_tree s; SNode (node_tree c)]
  | CPar c => se_tree c
  | CDot => SShape None None None None None None
  end
with sr_tree (s : csr) : se :=
  match s with
  | CDef qs t an ac =>
      SShape (closed_tree qs) (some (extra_tree qs))
        (match t with Some t => Some (te_tree t) | None => None end)
        (some ac) (some an) (some (extends_tree qs))
  | CRf l => SRef l
  end
with te_tree (c : cte) : te :=
  match c with
  | COne l => EOne None (List.map te_tree l) None None None None
  | CGroup l _ =>
      match List.map te_tree l with
      | [t] => t
      | ts => EEach None ts None None None None
      end
  | CInc l => EInc l
  | CBr id t c an ac => attach id (fst (card_tree c)) (snd (card_tree c)) (some ac) (some an) (te_tree t)
  | CTc id s p v c an ac =>
      ETc id (negated_tree s) (inverse_tree s) p
        (match se_tree v with SShape None None None None None None => None | e => Some e end)
        (fst (card_tree c)) (snd (card_tree c)) (some ac) (some an)
  end.

Definition stmt_tree (s : cstmt) : stmt :=
  match s with
  | CPrefix p i => IPrefix p i
  | CBase i => IBase i
  | CImport r => IImport r
  | CActions l => IActions l
  | CStart c => IStart (se_tree c)
  | CShape ab l c => IShape ab l (match c with Some c => se_tree c | None => SExternal end)
  end.

(** * Texts *)

(** A text with these tokens, and white space anywhere between them. *)
Definition lays_out (ts : list tok) (i : text) : Prop := List.map snd i = ts.

(** Keywords of the grammar, in any case. *)
Definition keywords : list string :=
  ["BASE"; "PREFIX"; "IMPORT"; "START"; "ABSTRACT"; "EXTERNAL"; "AND"; "OR"; "NOT"; "IRI"; "BNODE";
   "NONLITERAL"; "LITERAL"; "LENGTH"; "MINLENGTH"; "MAXLENGTH"; "MININCLUSIVE"; "MAXINCLUSIVE";
   "MINEXCLUSIVE"; "MAXEXCLUSIVE"; "TOTALDIGITS"; "FRACTIONDIGITS"; "CLOSED"; "EXTRA"; "EXTENDS"].
Definition small (a : Ascii.ascii) : Ascii.ascii :=
  let c := Ascii.nat_of_ascii a in
  if Nat.leb 65 c && Nat.leb c 90 then Ascii.ascii_of_nat (c + 32) else a.
Fixpoint begins (k s : string) : bool :=
  match k, s with
  | EmptyString, _ => true
  | String a k', String b s' => Ascii.eqb (small a) (small b) && begins k' s'
  | _, EmptyString => false
  end.
(** No keyword is the beginning of the prefix. *)
Definition clear (p : string) : Prop := forall k, In k keywords -> begins k p = false.
Definition clear_names (ts : list tok) : Prop := forall p l, In (TName p l) ts -> clear p.

(** * The sentences that are read as they are meant *)

Definition usize (z : Z) : Prop := (0 <= z < 2 ^ 64)%Z.
Definition i32 (z : Z) : Prop := (- 2 ^ 31 <= z < 2 ^ 31)%Z.
Definition facet_fits (f : facet) : Prop :=
  match f with FLen _ n | FDigits _ n => usize n | _ => True end.
Definition card_fits (c : option ccard) : Prop :=
  match c with
  | Some (CRange mn (BMax mx)) => i32 mn /\ i32 mx
  | Some (CRange mn _) => i32 mn
  | _ => True
  end.
(** A facet of strings stands first among the facets. *)
Definition plain_facets (fs : list facet) : Prop :=
  Forall facet_fits fs /\ Forall is_numeric (tl fs).
Definition plain_node (c : cnode) : Prop :=
  match c with
  | CKind _ fs | CStrings fs | CDatatype _ fs | CValues _ fs | CNumerics fs => plain_facets fs
  end.
Definition no_strings (c : cnode) : Prop :=
  match c with CStrings _ => False | _ => True end.

(** - facets of strings stand first, numbers fit, and a shape or a reference
      is not followed by a bare facet of strings;
    - shapes inside triple constraints have no extension;
    - the expressions in brackets have no attributes of their own. *)
Fixpoint plain (inl : bool) (c : cse) : Prop :=
  match c with
  | COr l | CAnd l => (fix all l := match l with [] => True | c :: l => plain inl c /\ all l end) l
  | CNot c => plain inl c
  | CPar c => plain false c
  | CNonLit c s => plain_node c /\ match s with Some s => plain_sub inl s | None => True end
  | CLit c => plain_node c
  | CSub s c => plain_sub inl s /\ when (fun c => plain_node c /\ no_strings c) c
  | CDot => True
  end
with plain_sub (inl : bool) (s : csr) : Prop :=
  match s with
  | CDef qs t an ac =>
      match t with Some t => plain_te t | None => True end /\ (inl = true -> extends_tree qs = [])
  | CRf _ => True
  end
with plain_te (c : cte) : Prop :=
  match c with
  | COne l | CGroup l _ => (fix all l := match l with [] => True | c :: l => plain_te c /\ all l end) l
  | CInc _ => True
  | CBr _ t c _ _ => plain_te t /\ bare (te_tree t) = true /\ card_fits c
  | CTc _ _ _ v c _ _ => plain true v /\ card_fits c
  end.
Definition plain_stmt (s : cstmt) : Prop :=
  match s with
  | CStart c => plain true c
  | CShape _ _ c => when (plain false) c
  | _ => True
  end.
