(** Reading and writing query shape maps in the compact syntax.

    The program: shex_ast/src/compact/shapemap_grammar.rs:28-178, the parser of
    shapemap_parser.rs:29-62 with its iterator (119-173), the keywords of
    grammar.rs:118-126, the resolution of names of shapemap/association.rs:18-35
    (node_selector.rs:236-260, pattern.rs:44-62, shacl_path_ref.rs:67-79,
    shape_selector.rs:52-70, ast/object_value.rs:87-100) and the printer of
    shapemap_compact_printer.rs:166-376 with compact_printer.rs:9-42.

    What is simplified here:
    - characters, errors and literals are as in LexModel;
    - the resolution of a name ([IriRef::deref_iri], with a base and a prefix
      map) is a function that may fail, one for the nodes and one for the shapes;
    - [qualify] is a function that writes an IRI, and [show] one that writes a
      number; colours are off (the strings are written in red whatever the
      options say); a line is never broken, so that [space] is a space;
    - selectors by a generic IRI and property paths cannot be written in the
      compact syntax and are left out. *)
From Coq Require Import List NArith Bool.
From Verif Require Import LexModel.
Import ListNotations.
Local Open Scope N_scope.

(** * Shape maps (shapemap/node_selector.rs:19-34, pattern.rs, shape_selector.rs:10-13) *)

Inductive value := VIri (x : iri_) | VLit (l : lit).
Inductive pat := Node (v : value) | Wildcard | Focus.
Inductive selector :=
| SelNode (v : value)
| SelBNode (l : str)
| SelTriple (s : pat) (p : iri_) (o : pat)
| SelSparql (q : str).
Inductive label := LIri (x : iri_) | LBNode (l : str).
Inductive shape_sel := Label (l : label) | Start.
Definition assoc : Type := selector * shape_sel.

(** * Keywords

    [tag_no_case]: no letter of the keywords is the lower case of a character
    outside of ASCII. *)
Definition lower (c : char) : char := if in_range c 65 90 then c + 32 else c.
Fixpoint tag_no_case (t : str) : parser unit :=
  fun i => match t with
           | [] => Ok tt i
           | c :: t => match i with
                       | d :: r => if lower c =? lower d then tag_no_case t r else Err
                       | [] => Err
                       end
           end.
(** [tag_no_case_tws] (grammar.rs:118-126). *)
Definition tag_no_case_tws (t : str) : parser unit := fun i =>
  bind (tws0 i) (fun _ i => bind (tag_no_case t i) (fun _ => tws0)).
Definition kw_start : str := [83; 84; 65; 82; 84].
Definition kw_focus : str := [70; 79; 67; 85; 83].
Definition kw_sparql : str := [83; 80; 65; 82; 81; 76].

(** * The grammar (shapemap_grammar.rs) *)

(** [shape_expr_label] (shex_grammar.rs:1478-1490), [shape_spec] (59-70). *)
Definition shape_expr_label : parser label := alt (pmap LIri iri) (pmap LBNode blank_node_label).
Definition shape_spec : parser shape_sel :=
  alt (pmap Label shape_expr_label) (pmap (fun _ => Start) (tag_no_case_tws kw_start)).

(** [object_value] (84-86), [node_or_wildcard] (97-103). *)
Definition object_value : parser value := alt (pmap VIri iri) (pmap VLit literal).
Definition node_or_wildcard : parser pat :=
  alt (pmap Node object_value) (pmap (fun _ => Wildcard) (token_tws [95])).
(** [rdf_type] (137-141): the IRI of rdf:type; [predicate] (133-135), [shacl_path] (129-131). *)
Definition rdf_type_iri : str :=
  [104; 116; 116; 112; 58; 47; 47; 119; 119; 119; 46; 119; 51; 46; 111; 114; 103; 47; 49; 57; 57; 57; 47; 48; 50; 47;
   50; 50; 45; 114; 100; 102; 45; 115; 121; 110; 116; 97; 120; 45; 110; 115; 35; 116; 121; 112; 101].
Definition rdf_type : parser iri_ := pmap (fun _ => Iri rdf_type_iri) (tag [97]).
Definition predicate : parser iri_ := alt iri rdf_type.
(** [focus] (143-146), [focus_object] (105-115), [subject_focus] (117-127). *)
Definition focus : parser unit := tag_no_case_tws kw_focus.
Definition focus_object : parser selector := fun i =>
  bind (focus i) (fun _ i => bind (tws0 i) (fun _ i => bind (predicate i) (fun p i => bind (tws0 i) (fun _ i =>
    bind (node_or_wildcard i) (fun o r => Ok (SelTriple Focus p o) r))))).
Definition subject_focus : parser selector := fun i =>
  bind (node_or_wildcard i) (fun s i => bind (tws0 i) (fun _ i => bind (predicate i) (fun p i => bind (tws0 i) (fun _ i =>
    bind (focus i) (fun _ r => Ok (SelTriple s p Focus) r))))).
(** [triple_pattern] (88-95). *)
Definition triple_pattern : parser selector := fun i =>
  bind (is 123 i) (fun _ i => bind (tws0 i) (fun _ i => bind (alt focus_object subject_focus i) (fun t i =>
    bind (tws0 i) (fun _ i => bind (is 125 i) (fun _ r => Ok t r))))).
(** [extended] (148-151). *)
Definition extended : parser selector := fun i =>
  bind (tag_no_case_tws kw_sparql i) (fun _ i => bind (tws0 i) (fun _ => pmap SelSparql string)).
(** [object_term], [subject_term] (80-82, 153-170), [node_selector] (73-78). *)
Definition object_term : parser selector :=
  alt (alt (pmap SelBNode blank_node_label) (pmap (fun x => SelNode (VIri x)) iri))
      (pmap (fun l => SelNode (VLit l)) literal).
Definition node_selector : parser selector := alt object_term (alt triple_pattern extended).

(** [association] (44-51), [rest_associations] (53-57), [shapemap_statement] (28-41). *)
Definition association : parser assoc := fun i =>
  bind (node_selector i) (fun n i => bind (token_tws [64] i) (fun _ => pmap (pair n) shape_spec)).
Definition next_association : parser assoc := fun i =>
  bind (token_tws [44] i) (fun _ i => bind (tws0 i) (fun _ => association)).
Definition rest_associations : parser (list assoc) := many0 next_association.
Definition shapemap_statement : parser (list assoc) := fun i =>
  bind (association i) (fun a i => bind (tws0 i) (fun _ i => bind (rest_associations i) (fun l i =>
    bind (tws0 i) (fun _ i => bind (popt (is 44) i) (fun _ i => bind (tws0 i) (fun _ r =>
      match r with [] => Ok (a :: l) [] | _ => Err end)))))).
(** The iterator (shapemap_parser.rs:124-173): white space, then one statement that uses up all. *)
Inductive out (A : Type) := Done (v : A) | Error | Panics.
Arguments Done {A}. Arguments Error {A}. Arguments Panics {A}.
Definition statements (t : str) : out (list assoc) :=
  match bind (tws0 t) (fun _ => shapemap_statement) with
  | Ok v _ => Done v
  | Err | Fail => Error
  | Panic => Panics
  end.
(** [parse_node_selector] (88-104), [parse_shape_selector] (76-86): the rest is dropped. *)
Definition parse_node_selector (t : str) : out selector :=
  match node_selector t with Ok v _ => Done v | Err | Fail => Error | Panic => Panics end.
Definition parse_shape_selector (t : str) : out shape_sel :=
  match shape_spec t with Ok v _ => Done v | Err | Fail => Error | Panic => Panics end.

(** * Resolving names (association.rs:18-35) *)

Section Resolve.
  Variables nodes shapes : iri_ -> option str.
  Definition r_iri (f : iri_ -> option str) (x : iri_) : option iri_ := option_map Iri (f x).
  Definition r_lit (l : lit) : option lit :=
    match l with Typed s d => option_map (Typed s) (r_iri nodes d) | l => Some l end.
  Definition r_value (v : value) : option value :=
    match v with VIri x => option_map VIri (r_iri nodes x) | VLit l => option_map VLit (r_lit l) end.
  Definition r_pat (p : pat) : option pat :=
    match p with Node v => option_map Node (r_value v) | p => Some p end.
  Definition r_selector (n : selector) : option selector :=
    match n with
    | SelNode v => option_map SelNode (r_value v)
    | SelBNode l => Some (SelBNode l)
    | SelTriple s p o =>
        match r_pat s, r_iri nodes p, r_pat o with Some s, Some p, Some o => Some (SelTriple s p o) | _, _, _ => None end
    | SelSparql q => Some (SelSparql q)
    end.
  Definition r_shape (s : shape_sel) : option shape_sel :=
    match s with Label (LIri x) => option_map (fun x => Label (LIri x)) (r_iri shapes x) | s => Some s end.
  Definition r_assoc (a : assoc) : option assoc :=
    match r_selector (fst a), r_shape (snd a) with Some n, Some s => Some (n, s) | _, _ => None end.
  Fixpoint r_all (l : list assoc) : option (list assoc) :=
    match l with
    | [] => Some []
    | a :: l => match r_assoc a, r_all l with Some a, Some l => Some (a :: l) | _, _ => None end
    end.
  (** [ShapeMapParser::parse] (29-62). *)
  Definition parse (t : str) : out (list assoc) :=
    match statements t with
    | Done l => match r_all l with Some l => Done l | None => Error end
    | Error => Error
    | Panics => Panics
    end.
End Resolve.

(** * Writing (shapemap_compact_printer.rs; [None] is a panic of [todo]) *)

Section Print.
  Variables node_name shape_name : str -> str.
  Variable show : str * numeric -> str.
  (** [pp_iri_ref] (343-351). *)
  Definition pp_iri_ref (qualify : str -> str) (x : iri_) : str :=
    match x with Iri s => qualify s | Prefixed p l => pp_name p l end.
  (** [pp_object_value] of compact_printer.rs (9-25), for nodes. *)
  Definition pp_node (v : value) : option str :=
    match v with
    | VIri x => Some (pp_iri_ref node_name x)
    | VLit (Number s k) => Some (show (s, k))
    | VLit _ => None
    end.
  (** [pp_object_value] (226-231), [pp_literal] (233-250), [pp_pattern] (218-224). *)
  Definition pp_pat (p : pat) : option str :=
    match p with
    | Node (VIri x) => Some (pp_iri_ref node_name x)
    | Node (VLit (Plain s)) => Some (pp_string s)
    | Node (VLit (Number s k)) => Some (show (s, k))
    | Node (VLit _) => None
    | Wildcard => Some [95]
    | Focus => Some kw_focus
    end.
  (** [pp_node_selector] (180-201), [triple_quotes] (207-209). *)
  Definition pp_selector (n : selector) : option str :=
    match n with
    | SelNode v => pp_node v
    | SelBNode l => Some ([95; 58] ++ l)
    | SelTriple s p o =>
        match pp_pat s, pp_pat o with
        | Some s, Some o => Some ([123; 32] ++ s ++ [32] ++ pp_iri_ref node_name p ++ [32] ++ o ++ [32; 125])
        | _, _ => None
        end
    | SelSparql q => Some (kw_sparql ++ [32] ++ [39; 39; 39] ++ q ++ [39; 39; 39])
    end.
  (** [pp_shape_selector] (371-376), [pp_label] (compact_printer.rs:27-42). *)
  Definition pp_shape (s : shape_sel) : str :=
    match s with
    | Label (LIri x) => pp_iri_ref shape_name x
    | Label (LBNode l) => [95; 58] ++ l
    | Start => kw_start
    end.
  (** [pp_association] (174-178), [pp_shapemap] (166-172). *)
  Definition pp_assoc (a : assoc) : option str :=
    match pp_selector (fst a) with Some n => Some (n ++ [64] ++ pp_shape (snd a)) | None => None end.
  Fixpoint pp_shapemap (l : list assoc) : option str :=
    match l with
    | [] => Some []
    | [a] => pp_assoc a
    | a :: l => match pp_assoc a, pp_shapemap l with Some a, Some l => Some (a ++ [10] ++ l) | _, _ => None end
    end.
End Print.
