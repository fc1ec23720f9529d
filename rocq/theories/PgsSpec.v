(** What property graph schemas mean, independently of the code.  A specification is
    read as a set of choices: a choice is a list of labels and a list of obligations
    (a key and the type its values must have).  A node conforms when its labels and its
    keys are exactly those of one choice (or more, where the choice is open) and each
    obligation holds. *)
From Coq Require Import List Bool Arith ZArith NArith Sorted.
Import ListNotations.
From Verif Require Import PgsModel.

(** ** Conditions *)

(** Integers are compared with integers and dates with dates. *)
Inductive before : value -> value -> Prop :=
| before_integer i j : (i < j)%Z -> before (VInteger i) (VInteger j)
| before_date i j : (i < j)%Z -> before (VDate i) (VDate j).

Inductive kin : value -> value -> Prop :=
| kin_integer i j : kin (VInteger i) (VInteger j)
| kin_date i j : kin (VDate i) (VDate j).

Fixpoint sat (rx : regexes) (c : cond) (v : value) : Prop :=
  match c with
  | CTrue => True
  | CFalse => False
  | CAnd a b => sat rx a v /\ sat rx b v
  | COr a b => sat rx a v \/ sat rx b v
  | CNot a => ~ sat rx a v
  | CEquals w => v = w
  | CGreaterThan w => before w v
  | CLessThan w => before v w
  | CGreaterThanOrEqual w => before w v \/ kin v w /\ v = w
  | CLessThanOrEqual w => before v w \/ kin v w /\ v = w
  | CRegex p => exists s, v = VString s /\ rx p s = Some true
  end.

(** Every comparison of the condition makes sense for the value. *)
Fixpoint typed (rx : regexes) (c : cond) (v : value) : Prop :=
  match c with
  | CTrue | CFalse | CEquals _ => True
  | CAnd a b | COr a b => typed rx a v /\ typed rx b v
  | CNot a => typed rx a v
  | CGreaterThan w | CLessThan w | CGreaterThanOrEqual w | CLessThanOrEqual w => kin v w
  | CRegex p => exists s, v = VString s /\ rx p s <> None
  end.

(** ** Value types *)

Definition fits (c : card) (n : nat) : Prop :=
  match c with
  | ZeroOrOne => n = 0 \/ n = 1
  | One => n = 1
  | ZeroOrMore => True
  | OneOrMore => n <> 0
  | Range lo Unbounded => lo <= n
  | Range lo (Bounded hi) => lo <= n <= hi
  end.

Fixpoint allows (rx : regexes) (t : vtype) (vs : list value) : Prop :=
  match t with
  | TAny => True
  | TString c => fits c (length vs) /\ forall v, In v vs -> exists s, v = VString s
  | TInteger c => fits c (length vs) /\ forall v, In v vs -> exists i, v = VInteger i
  | TDate c => fits c (length vs) /\ forall v, In v vs -> exists d, v = VDate d
  | TBool c => fits c (length vs) /\ forall v, In v vs -> exists b, v = VBool b
  | TIntersection a b => allows rx a vs /\ allows rx b vs
  | TUnion a b => allows rx a vs \/ allows rx b vs
  | TCond c => forall v, In v vs -> typed rx c v /\ sat rx c v
  end.

Fixpoint asks (rx : regexes) (s : tspec) (vs : list value) : Prop :=
  match s with
  | SValue t => allows rx t vs
  | SCond t c => allows rx t vs /\ forall v, In v vs -> typed rx c v /\ sat rx c v
  | SConjunction a b => asks rx a vs /\ asks rx b vs
  | SDisjunction a b => asks rx a vs \/ asks rx b vs
  end.

(** ** Records *)

Definition has (r : record) (k : name) : Prop := exists vs, In (k, vs) r.

(** A hash map holds a key once. *)
Definition good_record (r : record) : Prop := NoDup (map fst r).
Definition good_rtype (t : rtype) : Prop := NoDup (map fst (rt_map t)).

Definition satisfies (rx : regexes) (t : rtype) (r : record) : Prop :=
  (forall k vt, In (k, vt) (rt_map t) -> exists vs, In (k, vs) r /\ allows rx vt vs) /\
  (rt_open t = true \/ forall k, has r k -> exists vt, In (k, vt) (rt_map t)).

(** The part of a record on the keys of a type. *)
Definition part (r : record) (t : rtype) : record :=
  filter (fun kv => existsb (Nat.eqb (fst kv)) (map fst (rt_map t))) r.

(** ** Specifications *)

Definition obligations := list (name * tspec).

Inductive picks : pvalue -> obligations -> Prop :=
| picks_each a b o1 o2 : picks a o1 -> picks b o2 -> picks (EachOf a b) (o1 ++ o2)
| picks_left a b o : picks a o -> picks (OneOf a b) o
| picks_right a b o : picks b o -> picks (OneOf a b) o
| picks_property k t : picks (Property k t) [(k, t)]
| picks_given k t : picks (OptionalProperty k t) [(k, t)]
| picks_omitted k t : picks (OptionalProperty k t) []
| picks_empty : picks PEmpty [].

Definition defined (sc : schema) (t : name) (s : spec) : Prop :=
  exists i, lookup (node_names sc) t = Some i /\ lookup (node_types sc) i = Some s.

Record choice := mkChoice {
  c_labels : list name;
  c_open_labels : bool;
  c_asks : obligations;
  c_open_keys : bool
}.

Definition both (a b : choice) : choice :=
  mkChoice (c_labels a ++ c_labels b) (c_open_labels a || c_open_labels b)
           (c_asks a ++ c_asks b) (c_open_keys a || c_open_keys b).

Inductive chooses (sc : schema) : spec -> choice -> Prop :=
| ch_empty : chooses sc LEmpty (mkChoice [] false [] false)
| ch_label l : chooses sc (LLabel l) (mkChoice [l] false [] false)
| ch_ref t s c : defined sc t s -> chooses sc s c -> chooses sc (LRef t) c
| ch_some s c : chooses sc s c -> chooses sc (LOptional s) c
| ch_none s : chooses sc (LOptional s) (mkChoice [] false [] false)
| ch_and a b c1 c2 : chooses sc a c1 -> chooses sc b c2 -> chooses sc (LAnd a b) (both c1 c2)
| ch_left a b c : chooses sc a c -> chooses sc (LOr a b) c
| ch_right a b c : chooses sc b c -> chooses sc (LOr a b) c
| ch_open s c : chooses sc s c ->
    chooses sc (LOpen s) (mkChoice (c_labels c) true (c_asks c) (c_open_keys c))
| ch_closed_content s p c o : chooses sc s c -> picks p o ->
    chooses sc (LContent s (PClosed p)) (both c (mkChoice [] false o false))
| ch_open_content s p c o : chooses sc s c -> picks p o ->
    chooses sc (LContent s (POpen p)) (both c (mkChoice [] false o true)).

Definition right_labels (c : choice) (l : labels) : Prop :=
  (forall x, In x (c_labels c) -> In x l) /\
  (c_open_labels c = true \/ forall x, In x l -> In x (c_labels c)).

Definition right_record (rx : regexes) (c : choice) (r : record) : Prop :=
  (forall k t, In (k, t) (c_asks c) -> exists vs, In (k, vs) r /\ asks rx t vs) /\
  (c_open_keys c = true \/ forall k, has r k -> exists t, In (k, t) (c_asks c)).

Definition conforming (rx : regexes) (sc : schema) (s : spec) (n : node) : Prop :=
  exists c, chooses sc s c /\ right_labels c (n_labels n) /\ right_record rx c (n_content n).

(** A node as the program holds it: labels in order, keys once. *)
Definition good_node (n : node) : Prop :=
  StronglySorted lt (n_labels n) /\ good_record (n_content n).

(** ** Where the code follows the meaning *)

(** [PEmpty] only on its own. *)
Fixpoint solid (p : pvalue) : Prop :=
  match p with
  | PEmpty => False
  | EachOf a b | OneOf a b => solid a /\ solid b
  | Property _ _ | OptionalProperty _ _ => True
  end.

Definition whole (p : pvalue) : Prop := p = PEmpty \/ solid p.

Definition inner (p : pspec) : pvalue := match p with PClosed q | POpen q => q end.

(** No alternative carries properties of its own, so labels and contents can be
    chosen apart. [plain] is a specification without any property. *)
Inductive plain (sc : schema) : spec -> Prop :=
| pl_empty : plain sc LEmpty
| pl_label l : plain sc (LLabel l)
| pl_ref t : (forall s, defined sc t s -> plain sc s) -> plain sc (LRef t)
| pl_optional s : plain sc s -> plain sc (LOptional s)
| pl_and a b : plain sc a -> plain sc b -> plain sc (LAnd a b)
| pl_or a b : plain sc a -> plain sc b -> plain sc (LOr a b)
| pl_open s : plain sc s -> plain sc (LOpen s).

(** A specification without any label. *)
Inductive bare (sc : schema) : spec -> Prop :=
| ba_empty : bare sc LEmpty
| ba_ref t : (forall s, defined sc t s -> bare sc s) -> bare sc (LRef t)
| ba_optional s : bare sc s -> bare sc (LOptional s)
| ba_and a b : bare sc a -> bare sc b -> bare sc (LAnd a b)
| ba_or a b : bare sc a -> bare sc b -> bare sc (LOr a b)
| ba_open s : bare sc s -> bare sc (LOpen s)
| ba_content s p : bare sc s -> bare sc (LContent s p).

(** Enough for soundness: an alternative lies between properties only or between
    labels only. *)
Inductive apart (sc : schema) : spec -> Prop :=
| ap_empty : apart sc LEmpty
| ap_label l : apart sc (LLabel l)
| ap_ref t : (forall s, defined sc t s -> apart sc s) -> apart sc (LRef t)
| ap_optional s : apart sc s -> plain sc s \/ bare sc s -> apart sc (LOptional s)
| ap_and a b : apart sc a -> apart sc b -> apart sc (LAnd a b)
| ap_or a b : apart sc a -> apart sc b -> (plain sc a /\ plain sc b) \/ (bare sc a /\ bare sc b) ->
    apart sc (LOr a b)
| ap_open s : apart sc s -> apart sc (LOpen s)
| ap_content s p : apart sc s -> whole (inner p) -> apart sc (LContent s p).

(** Every choice has a label. *)
Inductive labelled (sc : schema) : spec -> Prop :=
| la_label l : labelled sc (LLabel l)
| la_ref t : (forall s, defined sc t s -> labelled sc s) -> labelled sc (LRef t)
| la_and_left a b : labelled sc a -> labelled sc (LAnd a b)
| la_and_right a b : labelled sc b -> labelled sc (LAnd a b)
| la_or a b : labelled sc a -> labelled sc b -> labelled sc (LOr a b)
| la_content s p : labelled sc s -> labelled sc (LContent s p).

(** Enough for completeness: nothing is open, and no alternative has labels on one
    side only. *)
Inductive settled (sc : schema) : spec -> Prop :=
| se_empty : settled sc LEmpty
| se_label l : settled sc (LLabel l)
| se_ref t : (forall s, defined sc t s -> settled sc s) -> settled sc (LRef t)
| se_optional s : settled sc s -> bare sc s -> settled sc (LOptional s)
| se_and a b : settled sc a -> settled sc b -> settled sc (LAnd a b)
| se_or a b : settled sc a -> settled sc b ->
    (labelled sc a /\ labelled sc b) \/ (bare sc a /\ bare sc b) -> settled sc (LOr a b)
| se_content s p : settled sc s -> whole p -> settled sc (LContent s (PClosed p)).

(** References that come to an end. *)
Inductive ends (sc : schema) : spec -> Prop :=
| en_empty : ends sc LEmpty
| en_label l : ends sc (LLabel l)
| en_ref t : (forall s, defined sc t s -> ends sc s) -> ends sc (LRef t)
| en_optional s : ends sc s -> ends sc (LOptional s)
| en_and a b : ends sc a -> ends sc b -> ends sc (LAnd a b)
| en_or a b : ends sc a -> ends sc b -> ends sc (LOr a b)
| en_open s : ends sc s -> ends sc (LOpen s)
| en_content s p : ends sc s -> ends sc (LContent s p).

(** The types a specification comes to by following references. *)
Inductive below (sc : schema) : spec -> name -> Prop :=
| be_here t : below sc (LRef t) t
| be_ref t s u : defined sc t s -> below sc s u -> below sc (LRef t) u
| be_optional s u : below sc s u -> below sc (LOptional s) u
| be_and_left a b u : below sc a u -> below sc (LAnd a b) u
| be_and_right a b u : below sc b u -> below sc (LAnd a b) u
| be_or_left a b u : below sc a u -> below sc (LOr a b) u
| be_or_right a b u : below sc b u -> below sc (LOr a b) u
| be_open s u : below sc s u -> below sc (LOpen s) u
| be_content s p u : below sc s u -> below sc (LContent s p) u.

Definition linked (sc : schema) (s : spec) : Prop :=
  forall t, below sc s t -> exists s', defined sc t s'.
