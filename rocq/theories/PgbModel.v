(** From the syntax trees of the parser to a property graph schema
    (pgschema/src/parser/pgs_builder.rs; the trees follow parser/pgs.rustemo, whose
    generated parser is not modelled).

    Identifiers are numbers, labels and keys are used as they are.  Types without a name
    get the text of a counter as their name (pgs.rs 101-113); as an identifier never
    starts with a digit, the names of types are [ident i] and [blank i]. *)
From Coq Require Import List Bool Arith ZArith NArith.
Import ListNotations.
From Verif Require Import PgsModel.

(** parser/pgs.rustemo 122-130. *)
Inductive gvalue := GString (s : text) | GNumber (s : text) | GDate (s : text) | GBool (b : bool).

(** pgs.rustemo 96-108. *)
Inductive gcond :=
| GTrue | GFalse
| GGT (v : gvalue) | GGE (v : gvalue) | GLT (v : gvalue) | GLE (v : gvalue) | GEQ (v : gvalue)
| GRegex (s : text)
| GAnd (a b : gcond) | GOr (a b : gcond) | GNot (a : gcond) | GParenCond (a : gcond).

(** pgs.rustemo 111-119. *)
Inductive gmax := GMax (s : text) | GStar.
Inductive gcard := GOptional | GOneOrMore | GZeroOrMore | GRange (s : text) (m : gmax).

(** pgs.rustemo 85-93. *)
Inductive kind := KString | KInteger | KDate | KBool.
Inductive gsimple :=
| GKind (k : kind) (c : option gcard) (check : option gcond)
| GAny (check : option gcond)
| GCheck (c : gcond).

(** pgs.rustemo 77-83. *)
Inductive gmore :=
| GInter (t : gsimple) (more : option gmore)
| GUnion (t : gsimple) (more : option gmore).
Record gtypes := mkTypes { gt_first : gsimple; gt_more : option gmore }.

(** pgs.rustemo 61-75. *)
Inductive gprops :=
| GEachOf (a b : gprops)
| GOneOf (a b : gprops)
| GParen (a : gprops)
| GBase (optional : bool) (k : name) (t : gtypes).

(** pgs.rustemo 43-59. *)
Inductive glabels :=
| GConj (a b : glabels)
| GDisj (a b : glabels)
| GParenLabels (a : glabels)
| GSquare (a : glabels)
| GLabel (l : name)
| GType (t : name).
Record gspec := mkGspec { gs_labels : option glabels; gs_props : option gprops }.

(** pgs.rustemo 1-41; the contents of graph types are left out. *)
Inductive gcreate :=
| GNode (t : option name) (s : gspec)
| GEdge (source : gspec) (t : option name) (s : gspec) (target : gspec)
| GGraph.

Definition ident (i : name) : name := 2 * i.
Definition blank (i : nat) : name := S (2 * i).

(** [Err]: [PgsError::InvalidNumber], [PgsError::InvalidDate]. *)
Definition built (A : Type) := option A.
Definition bbind {A B} (x : built A) (f : A -> built B) : built B :=
  match x with Some a => f a | None => None end.

(** pgs_builder.rs 370-375. *)
Definition remove_quotes (s : text) : text := removelast (tl s).

(** [str::parse] of an unsigned or, as there is no sign, a signed type with the given
    largest value: digits one by one, with a check for overflow at each. *)
Fixpoint parse_from (limit : N) (acc : N) (s : text) : option N :=
  match s with
  | [] => Some acc
  | c :: rest =>
      if (N.leb 48 c && N.leb c 57)%bool then
        let n := (acc * 10 + (c - 48))%N in
        if N.leb n limit then parse_from limit n rest else None
      else None
  end.

Definition parse_number (limit : N) (s : text) : option N :=
  match s with [] => None | _ => parse_from limit 0 s end.

Definition max_usize : N := 18446744073709551615.
Definition max_i32 : N := 2147483647.

Section Builder.
  (** [Date::parse] of the crate [time], a day number. *)
  Variable dates : text -> option Z.

  (** pgs_builder.rs 345-366. *)
  Definition get_value (v : gvalue) : built value :=
    match v with
    | GString s => Some (VString (remove_quotes s))
    | GNumber s => match parse_number max_i32 s with Some n => Some (VInteger (Z.of_N n)) | None => None end
    | GDate s => match dates (remove_quotes s) with Some d => Some (VDate d) | None => None end
    | GBool b => Some (VBool b)
    end.

  (** pgs_builder.rs 296-343. *)
  Fixpoint get_cond (c : gcond) : built cond :=
    match c with
    | GTrue => Some CTrue
    | GFalse => Some CFalse
    | GAnd a b => bbind (get_cond a) (fun x => bbind (get_cond b) (fun y => Some (CAnd x y)))
    | GOr a b => bbind (get_cond a) (fun x => bbind (get_cond b) (fun y => Some (COr x y)))
    | GNot a => bbind (get_cond a) (fun x => Some (CNot x))
    | GParenCond a => get_cond a
    | GGT v => bbind (get_value v) (fun x => Some (CGreaterThan x))
    | GGE v => bbind (get_value v) (fun x => Some (CGreaterThanOrEqual x))
    | GLT v => bbind (get_value v) (fun x => Some (CLessThan x))
    | GLE v => bbind (get_value v) (fun x => Some (CLessThanOrEqual x))
    | GEQ v => bbind (get_value v) (fun x => Some (CEquals x))
    | GRegex s => Some (CRegex (remove_quotes s))
    end.

  (** pgs_builder.rs 209-211. *)
  Definition get_number (s : text) : built nat :=
    match parse_number max_usize s with Some n => Some (N.to_nat n) | None => None end.

  (** pgs_builder.rs 199-207. *)
  Definition get_max (m : gmax) : built max :=
    match m with
    | GMax s => bbind (get_number s) (fun n => Some (Bounded n))
    | GStar => Some Unbounded
    end.

  (** pgs_builder.rs 184-197. *)
  Definition get_card (c : gcard) : built card :=
    match c with
    | GZeroOrMore => Some ZeroOrMore
    | GOneOrMore => Some OneOrMore
    | GRange s m => bbind (get_number s) (fun n => bbind (get_max m) (fun x => Some (Range n x)))
    | GOptional => Some ZeroOrOne
    end.

  (** pgs_builder.rs 288-294. *)
  Definition get_card_opt (c : option gcard) : built card :=
    match c with Some c => get_card c | None => Some One end.

  Definition kind_type (k : kind) (c : card) : vtype :=
    match k with KString => TString c | KInteger => TInteger c | KDate => TDate c | KBool => TBool c end.

  (** pgs_builder.rs 235-286. *)
  Definition get_simple_type (t : gsimple) : built tspec :=
    match t with
    | GKind k c check =>
        bbind (get_card_opt c) (fun c =>
          match check with
          | Some b => bbind (get_cond b) (fun b => Some (SCond (kind_type k c) b))
          | None => Some (SValue (kind_type k c))
          end)
    | GAny check =>
        match check with
        | Some b => bbind (get_cond b) (fun b => Some (SCond TAny b))
        | None => Some (SValue TAny)
        end
    | GCheck b => bbind (get_cond b) (fun b => Some (SCond TAny b))
    end.

  (** pgs_builder.rs 222-233: what comes after the second type is not looked at. *)
  Definition get_more_types (m : gmore) (current : tspec) : built tspec :=
    match m with
    | GUnion t _ => bbind (get_simple_type t) (fun x => Some (SDisjunction current x))
    | GInter t _ => bbind (get_simple_type t) (fun x => Some (SConjunction current x))
    end.

  (** pgs_builder.rs 213-220. *)
  Definition get_type_spec (t : gtypes) : built tspec :=
    bbind (get_simple_type (gt_first t)) (fun x =>
      match gt_more t with Some m => get_more_types m x | None => Some x end).

  (** pgs_builder.rs 148-182. *)
  Fixpoint get_property_value (p : gprops) : built pvalue :=
    match p with
    | GParen a => get_property_value a
    | GEachOf a b => bbind (get_property_value a) (fun x => bbind (get_property_value b) (fun y => Some (EachOf x y)))
    | GOneOf a b => bbind (get_property_value a) (fun x => bbind (get_property_value b) (fun y => Some (OneOf x y)))
    | GBase o k t => bbind (get_type_spec t) (fun x => Some (if o then OptionalProperty k x else Property k x))
    end.

  (** pgs_builder.rs 93-121; it never fails. *)
  Fixpoint get_labels (l : glabels) : spec :=
    match l with
    | GConj a b => LAnd (get_labels a) (get_labels b)
    | GDisj a b => LOr (get_labels a) (get_labels b)
    | GParenLabels a | GSquare a => get_labels a
    | GLabel x => LLabel x
    | GType t => LRef (ident t)
    end.

  (** pgs_builder.rs 76-91. *)
  Definition get_label_property_spec (s : gspec) : built spec :=
    match gs_labels s with
    | Some l =>
        match gs_props s with
        | Some p => bbind (get_property_value p) (fun p => Some (LContent (get_labels l) (PClosed p)))
        | None => Some (get_labels l)
        end
    | None => Some LEmpty
    end.

  (** What [parse_pgs] comes to: a schema, an error or a panic. *)
  Inductive parsed := Parsed (sc : schema) | Failed | Panicked.

  (** pgs.rs 101-104, 106-114. *)
  Definition add_blank_node_spec (sc : schema) (s : spec) : schema := add_node_spec sc (blank (node_counter sc)) s.
  Definition add_blank_edge_spec (sc : schema) (e : etype) : res schema := add_edge_spec sc (blank (edge_counter sc)) e.

  (** pgs_builder.rs 48-74. *)
  Fixpoint get_create_types (cs : list gcreate) (sc : schema) : parsed :=
    match cs with
    | [] => Parsed sc
    | GNode t s :: rest =>
        match get_label_property_spec s with
        | None => Failed
        | Some s =>
            get_create_types rest
              (match t with Some t => add_node_spec sc (ident t) s | None => add_blank_node_spec sc s end)
        end
    | GEdge source t s target :: rest =>
        match get_label_property_spec source with
        | None => Failed
        | Some a =>
            match get_label_property_spec target with
            | None => Failed
            | Some b =>
                match get_label_property_spec s with
                | None => Failed
                | Some m =>
                    match t with
                    | Some t =>
                        match add_edge_spec sc (ident t) (mkEtype a m b) with
                        | Err _ => Failed
                        | Ok sc' => get_create_types rest sc'
                        end
                    | None =>
                        get_create_types rest
                          (match add_blank_edge_spec sc (mkEtype a m b) with Err _ => sc | Ok sc' => sc' end)
                    end
                end
            end
        end
    | GGraph :: _ => Panicked
    end.

  (** pgs_builder.rs 38-45, after parsing. *)
  Definition parse_pgs (cs : list gcreate) : parsed := get_create_types cs schema_new.
End Builder.
