(** The meaning of a ShEx schema, read off its syntax tree (ShEx 2.1, sections 5.2 to 5.5).  Of the model only the
    syntax is used, and from EngineModel the coding of predicates with their direction. *)
From Coq Require Import List Arith Bool ZArith Permutation.
Import ListNotations.
From Verif Require Import EngineModel EngineSpec CompModel.

(** ** inclusions: the reference to a triple expression stands for the expression *)
Section Unfold.
  Variable L : nat -> ate -> Prop.

  Inductive unfold_te : ate -> ate -> Prop :=
  | unfold_each id l l' mn mx acts : unfold_tes l l' -> unfold_te (AEach id l mn mx acts) (AEach id l' mn mx acts)
  | unfold_one id l l' mn mx acts : unfold_tes l l' -> unfold_te (AOne id l mn mx acts) (AOne id l' mn mx acts)
  | unfold_tc id inv p mn mx acts : unfold_te (ATc id inv p None mn mx acts) (ATc id inv p None mn mx acts)
  | unfold_tc_value id inv p e e' mn mx acts : unfold_se e e' ->
      unfold_te (ATc id inv p (Some e) mn mx acts) (ATc id inv p (Some e') mn mx acts)
  | unfold_inc r e e' : L r e -> unfold_te e e' -> unfold_te (AInc r) e'
  with unfold_tes : list ate -> list ate -> Prop :=
  | unfold_te_nil : unfold_tes [] []
  | unfold_te_cons e e' l l' : unfold_te e e' -> unfold_tes l l' -> unfold_tes (e :: l) (e' :: l')
  with unfold_se : ase -> ase -> Prop :=
  | unfold_or l l' : unfold_ses l l' -> unfold_se (AOr l) (AOr l')
  | unfold_and l l' : unfold_ses l l' -> unfold_se (AAnd l) (AAnd l')
  | unfold_not e e' : unfold_se e e' -> unfold_se (ANot e) (ANot e')
  | unfold_node ps : unfold_se (ANode ps) (ANode ps)
  | unfold_shape closed extra extends : unfold_se (AShape closed extra None extends) (AShape closed extra None extends)
  | unfold_shape_te closed extra te te' extends : unfold_te te te' ->
      unfold_se (AShape closed extra (Some te) extends) (AShape closed extra (Some te') extends)
  | unfold_external : unfold_se AExternal AExternal
  | unfold_ref r : unfold_se (ARef r) (ARef r)
  with unfold_ses : list ase -> list ase -> Prop :=
  | unfold_se_nil : unfold_ses [] []
  | unfold_se_cons e e' l l' : unfold_se e e' -> unfold_ses l l' -> unfold_ses (e :: l) (e' :: l').
End Unfold.

(** ** meaning of expressions without inclusions *)

Definition arc : Type := nat * nat.

(** the number is within the bounds; a missing bound is 1, and -1 is no upper bound *)
Definition at_least (mn : option Z) (n : nat) : Prop := match mn with None => 1 <= n | Some m => (m <= Z.of_nat n)%Z end.
Definition at_most (mx : option Z) (n : nat) : Prop := match mx with None => n <= 1 | Some m => m = (-1)%Z \/ (Z.of_nat n <= m)%Z end.

(** the arcs fall into [k] parts of the kind [P] *)
Fixpoint times (P : list arc -> Prop) (k : nat) (arcs : list arc) : Prop :=
  match k with
  | 0 => arcs = []
  | S k => exists a b, Permutation arcs (a ++ b) /\ P a /\ times P k b
  end.
Definition group (P : list arc -> Prop) (mn mx : option Z) (arcs : list arc) : Prop :=
  exists k, at_least mn k /\ at_most mx k /\ times P k arcs.

Definition predicate_of (p : nat) (inv : option bool) : nat := match inv with Some true => EngineModel.inverse p | _ => direct p end.

(** a triple expression has a constraint on the predicate *)
Fixpoint mentions (e : ate) (k : nat) : Prop :=
  match e with
  | AEach _ l _ _ _ | AOne _ l _ _ _ => (fix any l := match l with [] => False | e :: r => mentions e k \/ any r end) l
  | ATc _ inv p _ _ _ _ => k = predicate_of p inv
  | AInc _ => False
  end.

Definition part_kinds (p : part) : list nat := match p with POne k => [k] | PFacets ks => ks end.

Section Sat.
  (** conditions on single values, external shapes, the graph, and the shapes that nodes are taken to have *)
  Variable eval : nat -> nat -> bool.
  Variable ext : nat -> bool.
  Variable g : rdf.
  Variable T : nat -> nat -> bool.

  Fixpoint sat (e : ase) (n : nat) {struct e} : Prop :=
    match e with
    | AOr l => (fix any l := match l with [] => False | e :: r => sat e n \/ any r end) l
    | AAnd l => (fix all l := match l with [] => True | e :: r => sat e n /\ all r end) l
    | ANot e => ~ sat e n
    | ANode ps => forall p k, In p ps -> In k (part_kinds p) -> eval k n = true
    | AExternal => ext n = true
    | ARef r => T n r = true
    | AShape closed extra expression _ =>
        let extra := match extra with Some l => l | None => [] end in
        exists matched rest, neighbourhood g n (matched ++ rest) /\
          match expression with None => matched = [] | Some te => tmatch te matched end /\
          forall k v, In (k, v) rest -> is_direct k = true ->
            match expression with
            | None => closed <> Some true
            | Some te =>
                (mentions te k -> (exists p, In p extra /\ k = direct p) /\ ~ constrains te k v) /\
                (~ mentions te k -> closed <> Some true)
            end
    end
  (** the arcs match the triple expression *)
  with tmatch (e : ate) (arcs : list arc) {struct e} : Prop :=
    match e with
    | AEach _ l mn mx _ =>
        group ((fix all l arcs := match l with
                                  | [] => arcs = []
                                  | e :: r => exists a b, Permutation arcs (a ++ b) /\ tmatch e a /\ all r b
                                  end) l) mn mx arcs
    | AOne _ l mn mx _ =>
        group (fun arcs => (fix any l := match l with [] => False | e :: r => tmatch e arcs \/ any r end) l) mn mx arcs
    | ATc _ inv p value mn mx acts =>
        at_least mn (length arcs) /\ at_most mx (length arcs) /\
        forall k v, In (k, v) arcs -> k = predicate_of p inv /\
          match value with None => True | Some e => sat e v end /\ forall a, In a acts -> eval a v = true
    | AInc _ => False
    end
  (** some triple constraint of the expression on the predicate [k] is satisfied by the value [v] *)
  with constrains (e : ate) (k v : nat) {struct e} : Prop :=
    match e with
    | AEach _ l _ _ _ | AOne _ l _ _ _ => (fix any l := match l with [] => False | e :: r => constrains e k v \/ any r end) l
    | ATc _ inv p value mn mx acts =>
        k = predicate_of p inv /\
        match value with None => True | Some e => sat e v end /\ forall a, In a acts -> eval a v = true
    | AInc _ => False
    end.
End Sat.

(** ** schemas *)

(** the label is declared with the expression, in the schema itself or an imported one; the start expression of an
    imported schema does not count *)
Definition declared (imported : list aschema) (root : aschema) (l : nat) (e : ase) : Prop :=
  (exists a d, In a (imported ++ [root]) /\ In d (a_shapes a) /\ d_id d = l /\ d_expr d = e) \/
  (l = start /\ a_start root = Some e).

(** every label is declared once *)
Definition declarations (imported : list aschema) (root : aschema) : list nat :=
  flat_map (fun a => map d_id (a_shapes a)) (imported ++ [root]) ++ match a_start root with Some _ => [start] | None => [] end.
Definition distinct (imported : list aschema) (root : aschema) : Prop := NoDup (declarations imported root).
(** or several times in the same way, as when a schema is imported twice *)
Definition consistent (imported : list aschema) (root : aschema) : Prop :=
  forall a a' d d', In a (imported ++ [root]) -> In a' (imported ++ [root]) -> In d (a_shapes a) -> In d' (a_shapes a') ->
    (d_id d = d_id d' -> d = d') /\ (a_start root <> None -> d_id d <> start).

(** the parts of an expression that are shape expressions *)
Inductive within : ase -> ase -> Prop :=
| within_refl e : within e e
| within_or l e e' : In e' l -> within e e' -> within e (AOr l)
| within_and l e e' : In e' l -> within e e' -> within e (AAnd l)
| within_not e e' : within e e' -> within e (ANot e')
| within_shape e closed extra te extends : within_te e te -> within e (AShape closed extra (Some te) extends)
with within_te : ase -> ate -> Prop :=
| within_each e id l te mn mx acts : In te l -> within_te e te -> within_te e (AEach id l mn mx acts)
| within_one e id l te mn mx acts : In te l -> within_te e te -> within_te e (AOne id l mn mx acts)
| within_tc e id inv p v mn mx acts : within e v -> within_te e (ATc id inv p (Some v) mn mx acts).

(** a triple expression with a label, anywhere in a triple expression but not in its value expressions *)
Inductive labelled_in (r : nat) (e : ate) : ate -> Prop :=
| labelled_here_each l mn mx acts : e = AEach (Some r) l mn mx acts -> labelled_in r e e
| labelled_here_one l mn mx acts : e = AOne (Some r) l mn mx acts -> labelled_in r e e
| labelled_here_tc inv p v mn mx acts : e = ATc (Some r) inv p v mn mx acts -> labelled_in r e e
| labelled_each id l te mn mx acts : In te l -> labelled_in r e te -> labelled_in r e (AEach id l mn mx acts)
| labelled_one id l te mn mx acts : In te l -> labelled_in r e te -> labelled_in r e (AOne id l mn mx acts).

(** the triple expression has the label, somewhere in the schemas *)
Definition labelled (imported : list aschema) (root : aschema) (r : nat) (te : ate) : Prop :=
  exists a e closed extra te0 extends, In a (imported ++ [root]) /\
    (a_start a = Some e \/ exists d, In d (a_shapes a) /\ d_expr d = e) /\
    within (AShape closed extra (Some te0) extends) e /\ labelled_in r te te0.
(** a label belongs to one triple expression *)
Definition unambiguous (imported : list aschema) (root : aschema) : Prop :=
  forall r te te', labelled imported root r te -> labelled imported root r te' -> te = te'.

Section Schemas.
  Variable eval : nat -> nat -> bool.
  Variable ext : nat -> bool.
  Variable g : rdf.
  Variable imported : list aschema.
  Variable root : aschema.

  (** the definition of the label, without inclusions *)
  Definition defines (l : nat) (e : ase) : Prop := exists e0, declared imported root l e0 /\ unfold_se (labelled imported root) e0 e.

  (** the typing gives nodes exactly the shapes whose definition they satisfy *)
  Definition solves (T : nat -> nat -> bool) : Prop :=
    forall l e n, defines l e -> (T n l = true <-> sat eval ext g T e n).

  (** the node has the shape in the greatest typing closed under the definitions *)
  Definition has_shape (n l : nat) : Prop :=
    exists T : nat -> nat -> bool, T n l = true /\
      forall m j, T m j = true -> exists e, defines j e /\ sat eval ext g T e m.
End Schemas.

(** a typing of the indices of a compiled schema that gives nodes exactly the indices whose expression holds *)
Definition solves_compiled (eval : nat -> nat -> bool) (ext : nat -> bool) (g : rdf) (sch : schema) (T : nat -> nat -> bool) : Prop :=
  forall n j e, find sch j = Some e -> (T n j = true <-> holds eval (fun n _ => ext n) (shape_holds eval g) T n j e).

(** ** a fragment *)

(** the triple expression has a triple constraint on the predicate [k] with this value expression and these actions *)
Inductive has_constraint (k : nat) (v : option ase) (acts : list nat) : ate -> Prop :=
| has_tc id inv p mn mx : k = predicate_of p inv -> has_constraint k v acts (ATc id inv p v mn mx acts)
| has_each id l e mn mx a : In e l -> has_constraint k v acts e -> has_constraint k v acts (AEach id l mn mx a)
| has_one id l e mn mx a : In e l -> has_constraint k v acts e -> has_constraint k v acts (AOne id l mn mx a).
(** the value expression does not speak of shapes *)
Definition without_shapes (v : option ase) : Prop := v = None \/ exists ps, v = Some (ANode ps).

(** no negation: neither NOT nor a constraint on an EXTRA predicate that speaks of shapes *)
Definition positive (e : ase) : Prop :=
  forall x, within x e ->
    match x with
    | ANot _ => False
    | AShape _ (Some extra) (Some te) _ => forall p v acts, In p extra -> has_constraint (direct p) v acts te -> without_shapes v
    | _ => True
    end.

(** the bounds leave the group alone; only say how it starts *)
Definition unrepeated (mn mx : option Z) : Prop := (mn = None \/ mn = Some 1%Z) /\ (mx = None \/ mx = Some 1%Z).
Definition unlimited (mn mx : option Z) : Prop := (mn = None \/ mn = Some 0%Z \/ mn = Some 1%Z) /\ mx = Some (-1)%Z.
(** groups with other bounds are not repeated themselves *)
Fixpoint without_bounds (e : ate) : Prop :=
  match e with
  | AEach _ l mn mx _ | AOne _ l mn mx _ => (unrepeated mn mx \/ unlimited mn mx) /\
      (fix all l := match l with [] => True | e :: r => without_bounds e /\ all r end) l
  | _ => True
  end.
Fixpoint shallow_bounds (e : ate) : Prop :=
  match e with
  | AEach _ l mn mx _ | AOne _ l mn mx _ =>
      (unrepeated mn mx /\ (fix all l := match l with [] => True | e :: r => shallow_bounds e /\ all r end) l) \/
      (fix all l := match l with [] => True | e :: r => without_bounds e /\ all r end) l
  | _ => True
  end.
(** no choice is empty, and the bounds of a group allow some positive number *)
Fixpoint sensible (e : ate) : Prop :=
  let all := fix all l := match l with [] => True | e :: r => sensible e /\ all r end in
  match e with
  | AEach _ l mn mx _ => (exists k, 0 < k /\ at_least mn k /\ at_most mx k) /\ all l
  | AOne _ l mn mx _ => l <> [] /\ (exists k, 0 < k /\ at_least mn k /\ at_most mx k) /\ all l
  | _ => True
  end.
(** the predicates of the triple constraints *)
Fixpoint predicates (e : ate) : list nat :=
  match e with
  | AEach _ l _ _ _ | AOne _ l _ _ _ => (fix all l := match l with [] => [] | e :: r => predicates e ++ all r end) l
  | ATc _ inv p _ _ _ _ => [predicate_of p inv]
  | AInc _ => []
  end.

(** the shapes on which the engine is known to follow the specification (C12, C21) *)
Definition in_fragment (e : ase) : Prop :=
  forall x, within x e ->
    match x with
    | ANot _ => False
    | AShape closed extra expression extends =>
        let extra := match extra with Some l => l | None => [] end in
        extends = [] /\
        match expression with
        | None => closed = Some true -> extra = []
        | Some te =>
            sensible te /\ shallow_bounds te /\
            (NoDup (predicates te) \/ forall eval ext g T, ~ tmatch eval ext g T te []) /\
            (forall k v acts, has_constraint k v acts te ->
               is_direct k = true /\ (acts = [] \/ without_shapes v) /\ (forall p, In p extra -> k = direct p -> without_shapes v)) /\
            (closed = Some true -> forall p, In p extra -> mentions te (direct p))
        end
    | _ => True
    end.
Section Fragment.
  Variable imported : list aschema.
  Variable root : aschema.
  Definition all_positive : Prop := forall l e, defines imported root l e -> positive e.
  Definition all_in_fragment : Prop :=
    (forall a d, In a (imported ++ [root]) -> In d (a_shapes a) -> d_abstract d = false) /\
    forall l e, defines imported root l e -> in_fragment e.
End Fragment.
