(** What the text of a property graph schema means, read off its syntax tree without
    going through the specifications the program builds. *)
From Coq Require Import List Bool Arith ZArith NArith.
Import ListNotations.
From Verif Require Import PgsModel PgsSpec PgModel PgSpec PgbModel.

(** ** Literals *)

(** Decimal numerals. *)
Inductive numeral : text -> N -> Prop :=
| num_one d : (d < 10)%N -> numeral [(48 + d)%N] d
| num_more s n d : numeral s n -> (d < 10)%N -> numeral (s ++ [(48 + d)%N]) (10 * n + d)%N.

(** Between quotes, where a backslash can come before a quote. *)
Inductive unescaped : text -> text -> Prop :=
| un_nil : unescaped [] []
| un_quote e b : unescaped e b -> unescaped (92 :: 34 :: e)%N (34%N :: b)
| un_char c e b : c <> 34%N -> unescaped e b -> unescaped (c :: e) (c :: b).

Definition spelled (s b : text) : Prop := exists e, s = (34 :: e ++ [34])%N /\ unescaped e b.

Inductive means (dates : text -> option Z) : gvalue -> value -> Prop :=
| me_string s b : spelled s b -> means dates (GString s) (VString b)
| me_number s n : numeral s n -> (n <= max_i32)%N -> means dates (GNumber s) (VInteger (Z.of_N n))
| me_date s b d : spelled s b -> dates b = Some d -> means dates (GDate s) (VDate d)
| me_bool b : means dates (GBool b) (VBool b).

(** ** Conditions, cardinalities, types *)

Section Meaning.
  Variables (dates : text -> option Z) (rx : regexes).

  Fixpoint gsat (c : gcond) (v : value) : Prop :=
    match c with
    | GTrue => True
    | GFalse => False
    | GAnd a b => gsat a v /\ gsat b v
    | GOr a b => gsat a v \/ gsat b v
    | GNot a => ~ gsat a v
    | GParenCond a => gsat a v
    | GGT g => exists w, means dates g w /\ before w v
    | GLT g => exists w, means dates g w /\ before v w
    | GGE g => exists w, means dates g w /\ (before w v \/ kin v w /\ v = w)
    | GLE g => exists w, means dates g w /\ (before v w \/ kin v w /\ v = w)
    | GEQ g => means dates g v
    | GRegex s => exists p t, spelled s p /\ v = VString t /\ rx p t = Some true
    end.

  (** The comparisons make sense for the value. *)
  Fixpoint gtyped (c : gcond) (v : value) : Prop :=
    match c with
    | GTrue | GFalse | GEQ _ => True
    | GAnd a b | GOr a b => gtyped a v /\ gtyped b v
    | GNot a | GParenCond a => gtyped a v
    | GGT g | GLT g | GGE g | GLE g => exists w, means dates g w /\ kin v w
    | GRegex s => exists p t, spelled s p /\ v = VString t /\ rx p t <> None
    end.

  Definition gchecked (c : option gcond) (vs : list value) : Prop :=
    match c with None => True | Some c => forall v, In v vs -> gtyped c v /\ gsat c v end.

  (** Without a cardinality there is one value. *)
  Definition gfits (c : option gcard) (n : nat) : Prop :=
    match c with
    | None => n = 1
    | Some GOptional => n = 0 \/ n = 1
    | Some GOneOrMore => n <> 0
    | Some GZeroOrMore => True
    | Some (GRange s m) =>
        (exists lo, numeral s lo /\ (lo <= N.of_nat n)%N) /\
        match m with GStar => True | GMax s' => exists hi, numeral s' hi /\ (N.of_nat n <= hi)%N end
    end.

  Definition of_kind (k : kind) (v : value) : Prop :=
    match k, v with
    | KString, VString _ | KInteger, VInteger _ | KDate, VDate _ | KBool, VBool _ => True
    | _, _ => False
    end.

  Definition gallows (t : gsimple) (vs : list value) : Prop :=
    match t with
    | GKind k c check => gfits c (length vs) /\ (forall v, In v vs -> of_kind k v) /\ gchecked check vs
    | GAny check => gchecked check vs
    | GCheck c => gchecked (Some c) vs
    end.

  Fixpoint gthen (so_far : Prop) (m : gmore) (vs : list value) : Prop :=
    match m with
    | GInter t more =>
        let p := so_far /\ gallows t vs in match more with None => p | Some m => gthen p m vs end
    | GUnion t more =>
        let p := so_far \/ gallows t vs in match more with None => p | Some m => gthen p m vs end
    end.

  Definition gasks (t : gtypes) (vs : list value) : Prop :=
    match gt_more t with
    | None => gallows (gt_first t) vs
    | Some m => gthen (gallows (gt_first t) vs) m vs
    end.
End Meaning.

(** ** Specifications *)

Definition duties := list (name * gtypes).

Inductive gpicks : gprops -> duties -> Prop :=
| gp_each a b o1 o2 : gpicks a o1 -> gpicks b o2 -> gpicks (GEachOf a b) (o1 ++ o2)
| gp_left a b o : gpicks a o -> gpicks (GOneOf a b) o
| gp_right a b o : gpicks b o -> gpicks (GOneOf a b) o
| gp_paren a o : gpicks a o -> gpicks (GParen a) o
| gp_given o k t : gpicks (GBase o k t) [(k, t)]
| gp_omitted k t : gpicks (GBase true k t) [].

(** Choices of labels and duties; a reference is to a node type declared in the text. *)
Inductive lchooses (f : list gcreate) : glabels -> list name -> duties -> Prop :=
| lc_conj a b l1 l2 o1 o2 : lchooses f a l1 o1 -> lchooses f b l2 o2 -> lchooses f (GConj a b) (l1 ++ l2) (o1 ++ o2)
| lc_left a b l o : lchooses f a l o -> lchooses f (GDisj a b) l o
| lc_right a b l o : lchooses f b l o -> lchooses f (GDisj a b) l o
| lc_paren a l o : lchooses f a l o -> lchooses f (GParenLabels a) l o
| lc_square a l o : lchooses f a l o -> lchooses f (GSquare a) l o
| lc_label x : lchooses f (GLabel x) [x] []
| lc_type t s l o : In (GNode (Some t) s) f -> schooses f s l o -> lchooses f (GType t) l o
with schooses (f : list gcreate) : gspec -> list name -> duties -> Prop :=
| sc_nothing : schooses f (mkGspec None None) [] []
| sc_labels g l o : lchooses f g l o -> schooses f (mkGspec (Some g) None) l o
| sc_props p o : gpicks p o -> schooses f (mkGspec None (Some p)) [] o
| sc_both g p l o o' : lchooses f g l o -> gpicks p o' -> schooses f (mkGspec (Some g) (Some p)) l (o ++ o').

Definition gconforming (dates : text -> option Z) (rx : regexes) (f : list gcreate) (s : gspec) (n : node) : Prop :=
  exists l o, schooses f s l o /\ (forall x, In x l <-> In x (n_labels n)) /\
    (forall k t, In (k, t) o -> exists vs, In (k, vs) (n_content n) /\ gasks dates rx t vs) /\
    (forall k, has (n_content n) k -> exists t, In (k, t) o).

(** ** Where the code follows the meaning *)

Section Fragment.
  Variable dates : text -> option Z.

  (** A string without an escaped quote. *)
  Definition unquoted (s : text) : Prop := exists b, s = (34 :: b ++ [34])%N /\ ~ In 34%N b.

  (** Literals with a meaning: a number that is in range, a date that exists. *)
  Definition read_value (v : gvalue) : Prop := exists w, means dates v w.
  Definition plain_value (v : gvalue) : Prop :=
    match v with GString s | GDate s => unquoted s | GNumber _ | GBool _ => True end.

  Fixpoint each_value (P : gvalue -> Prop) (Q : text -> Prop) (c : gcond) : Prop :=
    match c with
    | GTrue | GFalse => True
    | GAnd a b | GOr a b => each_value P Q a /\ each_value P Q b
    | GNot a | GParenCond a => each_value P Q a
    | GGT v | GGE v | GLT v | GLE v | GEQ v => P v
    | GRegex s => Q s
    end.

  Definition in_range (s : text) : Prop := exists n, numeral s n /\ (n <= max_usize)%N.
  Definition read_card (c : gcard) : Prop :=
    match c with
    | GRange s m => in_range s /\ match m with GMax s' => in_range s' | GStar => True end
    | _ => True
    end.

  Definition each_opt {A} (P : A -> Prop) (o : option A) : Prop := match o with Some a => P a | None => True end.

  Definition each_simple (P : gcard -> Prop) (Q : gcond -> Prop) (t : gsimple) : Prop :=
    match t with
    | GKind _ c check => each_opt P c /\ each_opt Q check
    | GAny check => each_opt Q check
    | GCheck c => Q c
    end.

  Definition plain_simple (t : gsimple) : Prop :=
    each_simple (fun _ => True) (each_value plain_value unquoted) t.
  Definition read_simple (t : gsimple) : Prop :=
    each_simple read_card (each_value read_value (fun _ => True)) t.

  (** One type or two. *)
  Definition each_types (P : gsimple -> Prop) (t : gtypes) : Prop :=
    P (gt_first t) /\
    match gt_more t with
    | None => True
    | Some (GInter u None) | Some (GUnion u None) => P u
    | _ => False
    end.

  Fixpoint each_props (P : gtypes -> Prop) (p : gprops) : Prop :=
    match p with
    | GEachOf a b | GOneOf a b => each_props P a /\ each_props P b
    | GParen a => each_props P a
    | GBase _ _ t => P t
    end.

  (** Properties only beside labels. *)
  Definition kept (s : gspec) : Prop :=
    match gs_props s with
    | None => True
    | Some p => gs_labels s <> None /\ each_props (each_types plain_simple) p
    end.

  Definition readable (s : gspec) : Prop := each_opt (each_props (each_types read_simple)) (gs_props s).

  Definition each_spec (P : gspec -> Prop) (c : gcreate) : Prop :=
    match c with
    | GNode _ s => P s
    | GEdge a _ s b => P a /\ P s /\ P b
    | GGraph => False
    end.
End Fragment.

Definition node_idents (f : list gcreate) : list name :=
  flat_map (fun c => match c with GNode (Some t) _ => [t] | _ => [] end) f.
Definition edge_idents (f : list gcreate) : list name :=
  flat_map (fun c => match c with GEdge _ (Some t) _ _ => [t] | _ => [] end) f.
