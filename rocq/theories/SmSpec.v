(** Query shape maps in the compact syntax: https://shexspec.github.io/shape-map/#grammar

    A shape map is a list of pairs of a node selector and a shape selector.  A
    derivation goes through a text from a position to another: [X i r v] is to
    say that the text [i] starts with an [X] that means [v], and [r] follows. *)
From Coq Require Import List NArith Bool.
From Verif Require Import LexModel LexSpec SmModel.
Import ListNotations.
Local Open Scope N_scope.

(** The longest word of a terminal (see C83). *)
Definition takes {A} (L : lang A) (i r : str) (v : A) : Prop := exists w, longest L i w r /\ L w v.
(** The terminals that the program reads (C83 compares them with those of ShEx). *)
Definition IRI : lang iri_ := iris single_dots (local_dots keep).
Definition LIT : lang lit := literals (strings 0) IRI.

(** A word of letters, in lower or upper case. *)
Definition same_letter (c d : char) : Prop :=
  c = d \/ 65 <= c <= 90 /\ d = c + 32 \/ 65 <= d <= 90 /\ c = d + 32.
Definition spelled (k w : str) : Prop := Forall2 same_letter k w.
(** What ends a word: no character of a name follows. *)
Definition in_name (c : char) : Prop := PN_CHARS c \/ c = 46 \/ c = 58.
Definition word_ends (r : str) : Prop := stops in_name r.

(** * The grammar

    [strict] is to hold for what the completeness of the program needs: words
    end where they should, and a subject does not start with the letters FOCUS. *)
Section Grammar.
  Variable strict : Prop.

  Inductive literal_at : str -> str -> lit -> Prop :=
  | lit_string i r l : takes LIT i r l -> literal_at i r l
  | lit_number i r s k : takes NUMBER i r (s, k) -> literal_at i r (Number s k)
  | lit_true r : (strict -> word_ends r) -> literal_at ([116; 114; 117; 101] ++ r) r (Bool true)
  | lit_false r : (strict -> word_ends r) -> literal_at ([102; 97; 108; 115; 101] ++ r) r (Bool false).

  Definition keyword (k i r : str) : Prop := exists w, i = w ++ r /\ spelled k w.

  Inductive object_at : str -> str -> pat -> Prop :=
  | obj_iri i r x : takes IRI i r x -> object_at i r (Node (VIri x))
  | obj_lit i r l : literal_at i r l -> object_at i r (Node (VLit l))
  | obj_any r : object_at (95 :: r) r Wildcard.

  Inductive predicate_at : str -> str -> iri_ -> Prop :=
  | pred_iri i r x : takes IRI i r x -> predicate_at i r x
  | pred_a r : (strict -> word_ends r) -> predicate_at (97 :: r) r (Iri rdf_type_iri).

  Inductive triple_at : str -> str -> selector -> Prop :=
  | focus_first i1 i2 i3 i4 i5 r p o :
      keyword kw_focus i1 i2 -> skip i2 i3 -> predicate_at i3 i4 p -> skip i4 i5 -> object_at i5 r o ->
      triple_at i1 r (SelTriple Focus p o)
  | focus_last i1 i2 i3 i4 i5 r s p :
      (strict -> forall w r', i1 = w ++ r' -> ~ spelled kw_focus w) ->
      object_at i1 i2 s -> skip i2 i3 -> predicate_at i3 i4 p -> skip i4 i5 -> keyword kw_focus i5 r ->
      triple_at i1 r (SelTriple s p Focus).

  Inductive node_at : str -> str -> selector -> Prop :=
  | node_iri i r x : takes IRI i r x -> node_at i r (SelNode (VIri x))
  | node_bnode i r l : takes label_dots i r l -> node_at i r (SelBNode l)
  | node_literal i r l : literal_at i r l -> node_at i r (SelNode (VLit l))
  | node_triple i1 i2 i3 r t : skip i1 i2 -> triple_at i2 i3 t -> skip i3 (125 :: r) -> node_at (123 :: i1) r t
  | node_sparql i1 i2 i3 r q : keyword kw_sparql i1 i2 -> skip i2 i3 -> takes (strings 0) i3 r q -> node_at i1 r (SelSparql q).

  Inductive shape_at : str -> str -> shape_sel -> Prop :=
  | shape_iri i r x : takes IRI i r x -> shape_at i r (Label (LIri x))
  | shape_bnode i r l : takes label_dots i r l -> shape_at i r (Label (LBNode l))
  | shape_start i r : keyword kw_start i r -> (strict -> word_ends r) -> shape_at i r Start.

  Inductive pair_at : str -> str -> assoc -> Prop :=
  | pair_ i1 i2 i3 i4 r n s : node_at i1 i2 n -> skip i2 (64 :: i3) -> skip i3 i4 -> shape_at i4 r s -> pair_at i1 r (n, s).

  Inductive pairs_at : str -> str -> list assoc -> Prop :=
  | pairs_one i r a : pair_at i r a -> pairs_at i r [a]
  | pairs_more i1 i2 i3 i4 r a l : pair_at i1 i2 a -> skip i2 (44 :: i3) -> skip i3 i4 -> pairs_at i4 r l -> pairs_at i1 r (a :: l).

  (** A comma may stand at the end (not so in the grammar of shape maps). *)
  Definition sentence (t : str) (l : list assoc) : Prop := exists i r, skip t i /\ pairs_at i r l /\
    (skip r [] \/ exists r', skip r (44 :: r') /\ skip r' []).
End Grammar.

(** * What the grammar of shape maps has in addition

    Statuses in front of shapes, the shapes as tokens that start with @, blank
    nodes in triple patterns, and maps without pairs.  (A part of the official
    grammar, with its terminals; meanings are left out.) *)
Definition names : lang iri_ := iris PNAME_NS PN_LOCAL.
Definition at_name (w : str) : Prop := exists v x, w = 64 :: v /\ prefixed PNAME_NS PN_LOCAL v x.
Definition tag_or_name : lang unit := fun w _ => (exists l, LANGTAG w l) \/ at_name w.
Inductive official_node : str -> str -> Prop :=
| o_iri i r x : takes names i r x -> official_node i r
| o_bnode i r l : takes BLANK_NODE_LABEL i r l -> official_node i r
| o_string i r s : takes STRING i r s -> official_node i r
| o_triple i1 i2 i3 i4 i5 i6 i7 r : skip i1 i2 -> keyword kw_focus i2 i3 -> skip i3 i4 ->
    (exists x, takes names i4 i5 x) -> skip i5 i6 -> official_node i6 i7 -> skip i7 (125 :: r) -> official_node (123 :: i1) r.
Inductive official_shape : str -> str -> Prop :=
| o_label i i1 r : i = 64 :: i1 -> (exists j, skip i1 j /\ exists x, takes names j r x) -> official_shape i r
| o_status i i1 c i2 r : i = 64 :: i1 -> skip i1 (c :: i2) -> (c = 33 \/ c = 63) ->
    (exists j, skip i2 j /\ exists x, takes names j r x) -> official_shape i r
| o_token i w r : longest tag_or_name i w r -> at_name w -> official_shape i r.
Inductive official_pairs : str -> Prop :=
| o_one i1 i2 i3 r : official_node i1 i2 -> skip i2 i3 -> official_shape i3 r -> skip r [] -> official_pairs i1
| o_more i1 i2 i3 i4 i5 i6 : official_node i1 i2 -> skip i2 i3 -> official_shape i3 i4 -> skip i4 (44 :: i5) -> skip i5 i6 ->
    official_pairs i6 -> official_pairs i1.
Definition official (t : str) : Prop := skip t [] \/ exists i, skip t i /\ official_pairs i.

(** * Names *)

(** The names of a map, as they are resolved: of the nodes and of the shapes. *)
Definition lit_names (l : lit) : list iri_ := match l with Typed _ d => [d] | _ => [] end.
Definition value_names (v : value) : list iri_ := match v with VIri x => [x] | VLit l => lit_names l end.
Definition pat_names (p : pat) : list iri_ := match p with Node v => value_names v | _ => [] end.
Definition node_names (n : selector) : list iri_ :=
  match n with SelNode v => value_names v | SelTriple s p o => pat_names s ++ p :: pat_names o | _ => [] end.
Definition shape_names (s : shape_sel) : list iri_ := match s with Label (LIri x) => [x] | _ => [] end.
Definition known (f : iri_ -> option str) (l : list iri_) : Prop := forall x, In x l -> exists s, f x = Some s.
Definition all_known (nodes shapes : iri_ -> option str) (m : list assoc) : Prop :=
  forall n s, In (n, s) m -> known nodes (node_names n) /\ known shapes (shape_names s).

(** The same map with other names. *)
Section Renamed.
  Variables fn fs : iri_ -> str.
  Definition n_lit (l : lit) : lit := match l with Typed s d => Typed s (Iri (fn d)) | l => l end.
  Definition n_value (v : value) : value := match v with VIri x => VIri (Iri (fn x)) | VLit l => VLit (n_lit l) end.
  Definition n_pat (p : pat) : pat := match p with Node v => Node (n_value v) | p => p end.
  Definition n_sel (n : selector) : selector :=
    match n with SelNode v => SelNode (n_value v) | SelTriple s p o => SelTriple (n_pat s) (Iri (fn p)) (n_pat o) | n => n end.
  Definition n_shape (s : shape_sel) : shape_sel := match s with Label (LIri x) => Label (LIri (Iri (fs x))) | s => s end.
  Definition renamed (m : list assoc) : list assoc := map (fun a => (n_sel (fst a), n_shape (snd a))) m.
End Renamed.

(** * What can be written and read back *)

Section Printable.
  Variables nodes shapes : iri_ -> option str.
  Variables node_name shape_name : str -> str.
  Variable show : str * numeric -> str.
  (** What is written for an IRI is a name that stands for it. *)
  Definition faithful (name : str -> str) (f : iri_ -> option str) (x : iri_) : Prop :=
    exists s y, x = Iri s /\ IRI (name s) y /\ f y = Some s.
  Definition plain_number (s : str) (k : numeric) : Prop := NUMBER (show (s, k)) (s, k).
  Definition printable_pat (p : pat) : Prop :=
    match p with
    | Node (VIri x) => faithful node_name nodes x
    | Node (VLit (Plain s)) => Forall (fun c => ~ In c [34; 92; 10; 13]) s
    | Node (VLit (Number s k)) => plain_number s k
    | Node (VLit _) => False
    | Wildcard => True
    | Focus => False
    end.
  Definition printable_node (n : selector) : Prop :=
    match n with
    | SelNode (VIri x) => faithful node_name nodes x
    | SelNode (VLit (Number s k)) => plain_number s k
    | SelNode (VLit _) => False
    | SelBNode l => label_dots ([95; 58] ++ l) l
    | SelTriple Focus p o => faithful node_name nodes p /\ printable_pat o
    | SelTriple s p Focus => printable_pat s /\ faithful node_name nodes p /\
        (forall x, s = Node (VIri (Iri x)) -> forall w r, node_name x = w ++ r -> ~ spelled kw_focus w)
    | SelTriple _ _ _ => False
    | SelSparql q => Forall (fun c => ~ In c [39; 92]) q
    end.
  Definition printable_shape (s : shape_sel) : Prop :=
    match s with
    | Label (LIri x) => faithful shape_name shapes x
    | Label (LBNode l) => label_dots ([95; 58] ++ l) l
    | Start => True
    end.
  Definition printable (a : assoc) : Prop := printable_node (fst a) /\ printable_shape (snd a).
End Printable.
