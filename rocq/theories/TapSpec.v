(** What a table of an application profile says: the columns are known by their headings, the rows are grouped by the
    shape identifier in force, and every row with a property is a statement about it (DCTAP primer, sections 3-5).
    Independent of the reader: only the types of shapes and statements and the spelling of constants are shared. *)
From Coq Require Import String List Arith.
Import ListNotations.
From Verif Require Import TapModel.

(** ** text *)
Definition space (c : nat) : Prop := 9 <= c <= 13 \/ c = 32 \/ c = 133 \/ c = 160.
Definition blank (s : str) : Prop := Forall space s.
(** [t] is [s] without the white space around it *)
Definition stripped (s t : str) : Prop :=
  exists a b, s = a ++ t ++ b /\ blank a /\ blank b /\ (forall c r, t = c :: r -> ~ space c) /\ (forall c r, t = r ++ [c] -> ~ space c).
Definition capital (c d : nat) : Prop := (97 <= c <= 122 /\ c = d + 32) \/ (~ 97 <= c <= 122 /\ c = d).
(** the word [w] in any case *)
Definition spells (t : str) (w : string) : Prop := Forall2 capital t (lit w).
Definition reads (s : str) (w : string) : Prop := exists t, stripped s t /\ spells t w.
(** the words of a cell, which are separated by spaces *)
Inductive words : str -> list str -> Prop :=
| words_none s : Forall (eq 32) s -> words s []
| words_more a w rest l : Forall (eq 32) a -> w <> [] -> ~ In 32 w -> (rest = [] \/ exists r, rest = 32 :: r) ->
    words rest l -> words (a ++ w ++ rest) (w :: l).
(** the values of a list, each ended by the delimiter, which may be missing after the last *)
Inductive pieces (d : nat) : str -> list str -> Prop :=
| pieces_none : pieces d [] []
| pieces_last p : p <> [] -> ~ In d p -> pieces d p [p]
| pieces_more p rest l : ~ In d p -> pieces d rest l -> pieces d (p ++ d :: rest) (p :: l).

(** ** columns *)
(** column [i] is the last one headed [name] *)
Definition heads (hr : row) (name : string) (i : nat) : Prop :=
  (exists c, nth_error hr i = Some c /\ reads c name) /\ (forall j c, i < j -> nth_error hr j = Some c -> ~ reads c name).
(** what row [r] has in the column [name] *)
Definition entry (hr : row) (name : string) (r : row) (o : option str) : Prop :=
  match o with
  | Some c => exists i, heads hr name i /\ nth_error r i = Some c
  | None => forall i, heads hr name i -> nth_error r i = None
  end.

(** ** statements *)
Definition yes (c : str) : Prop := reads c "YES" \/ reads c "TRUE" \/ reads c "1".
Definition no (c : str) : Prop := blank c \/ reads c "NO" \/ reads c "FALSE" \/ reads c "0".
Definition says_bool (o : option str) (v : option bool) : Prop :=
  match o, v with
  | None, None => True
  | Some c, Some true => yes c
  | Some c, Some false => no c
  | _, _ => False
  end.
Definition names_kind (w : str) (b : basic) : Prop :=
  match b with
  | BIri => spells w "IRI" \/ spells w "URI"
  | BBnode => spells w "BNODE"
  | BLiteral => spells w "LITERAL"
  end.
Definition says_kinds (o : option str) (v : option nodetype) : Prop :=
  match o with
  | None => v = None
  | Some c => exists ws bs, words c ws /\ Forall2 names_kind ws bs /\ v = match bs with [] => None | [b] => Some (NBasic b) | _ => Some (NOr bs) end
  end.
Definition says_datatypes (o : option str) (v : list str) : Prop :=
  match o with None => v = [] | Some c => exists t, stripped c t /\ words t v end.
Definition says_text (o : option str) (v : option str) : Prop :=
  match o, v with
  | None, None => True
  | Some c, None => blank c
  | Some c, Some t => stripped c t /\ t <> []
  | None, Some _ => False
  end.
Definition on_one_line (c d : nat) : Prop := (c = 10 /\ d = 32) \/ (c <> 10 /\ d = c).
Definition says_label (o : option str) (v : option str) : Prop :=
  exists t, says_text o t /\ match t, v with None, None => True | Some t, Some u => Forall2 on_one_line t u | _, _ => False end.
Definition says_note (o : option str) (v : option str) : Prop :=
  match o with None => v = None | Some c => (c = [] /\ v = None) \/ (c <> [] /\ v = Some c) end.
(** constraints are lists of values unless another type is given *)
Definition listed (ot : option str) : Prop := match ot with None => True | Some c => blank c \/ reads c "PICKLIST" end.
Definition patterned (ot : option str) : Prop := match ot with None => False | Some c => reads c "PATTERN" end.
Definition says_constraint (d : nat) (oc ot : option str) (v : option constraint) : Prop :=
  match oc with
  | None => v = None
  | Some c =>
      (blank c -> v = None) /\
      (~ blank c -> listed ot -> exists l, pieces d c l /\ v = Some (PickList l)) /\
      (~ blank c -> patterned ot -> v = Some (Pattern c)) /\
      (~ listed ot -> ~ patterned ot -> v = None)
  end.
(** the rest of a row: what it says about its property *)
Definition says (hr : row) (d : nat) (r : row) (st : statement) : Prop :=
  (exists o, entry hr "PROPERTYLABEL" r o /\ says_label o (s_label st)) /\
  (exists o, entry hr "MANDATORY" r o /\ says_bool o (s_mandatory st)) /\
  (exists o, entry hr "REPEATABLE" r o /\ says_bool o (s_repeatable st)) /\
  (exists o, entry hr "VALUENODETYPE" r o /\ says_kinds o (s_nodetype st)) /\
  (exists o, entry hr "VALUEDATATYPE" r o /\ says_datatypes o (s_datatypes st)) /\
  (exists o, entry hr "VALUESHAPE" r o /\ says_text o (s_value_shape st)) /\
  (exists o t, entry hr "VALUECONSTRAINT" r o /\ entry hr "VALUECONSTRAINTTYPE" r t /\ says_constraint d o t (s_constraint st)) /\
  (exists o, entry hr "NOTE" r o /\ says_note o (s_note st)).
(** a row is a statement if it has a property *)
Definition states (hr : row) (d : nat) (r : row) (o : option statement) : Prop :=
  exists p, entry hr "PROPERTYID" r p /\
    match o with
    | None => says_text p None
    | Some st => says_text p (Some (s_property st)) /\ says hr d r st
    end.

(** ** shapes *)
Definition id_of (hr : row) (r : row) (i : str) : Prop := exists c, entry hr "SHAPEID" r (Some c) /\ stripped c i.
Definition somes {A} (l : list (option A)) : list A := flat_map (fun o => match o with Some a => [a] | None => [] end) l.
(** a shape has its identifier, label and parent from its first row, and its statements from all of its rows *)
Definition describes (hr : row) (d : nat) (g : str * list row) (s : tapshape) : Prop :=
  t_id s = Some (fst g) /\
  (exists r rest o, snd g = r :: rest /\ entry hr "SHAPELABEL" r o /\
     match o with None => t_label s = None | Some c => exists t, stripped c t /\ t_label s = Some t end) /\
  (exists r rest oe ol e l, snd g = r :: rest /\ entry hr "EXTENDSID" r oe /\ entry hr "EXTENDSLABEL" r ol /\
     says_text oe e /\ says_note ol l /\ t_extends s = match e with Some e => [(e, l)] | None => [] end) /\
  (exists os, Forall2 (states hr d) (snd g) os /\ t_statements s = somes os).
(** the rows of a shape are those from one that names it up to one that names another *)
Inductive runs (hr : row) : list (str * list row) -> Prop :=
| runs_none : runs hr []
| runs_more i r rest gs :
    id_of hr r i -> Forall (fun x => exists j, id_of hr x j /\ (j = [] \/ j = i)) rest ->
    (forall k g gs', gs = (k, g) :: gs' -> k <> [] /\ k <> i) -> runs hr gs -> runs hr ((i, r :: rest) :: gs).
Definition blank_row (r : row) : Prop := Forall blank r.
(** empty rows before the first shape count for nothing *)
Definition described (hr : row) (d : nat) (rows : list row) (shapes : list tapshape) : Prop :=
  exists skipped gs, rows = skipped ++ concat (map snd gs) /\ Forall blank_row skipped /\
    (forall i r rest gs', gs = (i, r :: rest) :: gs' -> ~ blank_row r) /\ runs hr gs /\ Forall2 (describes hr d) gs shapes.

(** ** the tables considered *)
(** every row has all the cells *)
Definition complete (hr : row) (rows : list row) : Prop := Forall (fun r => length hr <= length r) rows.
(** cells for properties and constraints are not filled with white space, and patterns are given *)
Definition tidy (hr : row) (rows : list row) : Prop :=
  Forall (fun r => (forall c, entry hr "PROPERTYID" r (Some c) -> blank c -> c = []) /\
                   (forall c, entry hr "VALUECONSTRAINT" r (Some c) -> blank c ->
                      c = [] /\ (forall t, entry hr "VALUECONSTRAINTTYPE" r t -> ~ patterned t))) rows.
