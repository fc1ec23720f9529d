(* What the conversion of ShEx to SPARQL should do.  Of the model only the type of queries is used. *)
From Coq Require Import List String Ascii Bool ZArith Permutation.
Import ListNotations.
From Verif Require Import SjModel CoModel CoSpec SqModel.
Open Scope string_scope.

Section Spec.
Context {L : lib}.

(* ------------------------------------------------------------------ *)
(* Which schemas are converted                                          *)

(* The constraints of a triple expression, in order. *)
Fixpoint constraints (te : texpr) : list (iriref * option sexpr) :=
  match te with
  | TEach _ l _ _ _ _ | TOne _ l _ _ _ _ => flat_map constraints l
  | TTriple _ _ _ p ve _ _ _ _ => [(p, ve)]
  | TRef _ => []
  end.
(* No inverse constraints and no references. *)
Fixpoint forward (te : texpr) : Prop :=
  match te with
  | TEach _ l _ _ _ _ | TOne _ l _ _ _ _ => fold_right and True (List.map forward l)
  | TTriple _ _ inv _ _ _ _ _ _ => inv <> Some true
  | TRef _ => False
  end.
Definition mentions (te : texpr) (p : iriref) : Prop := exists ve, In (p, ve) (constraints te).

(* The name of an IRI: what is left of it after the longest namespace it starts with. *)
Definition named_after (pm : list (string * string)) (i v : string) : Prop :=
  (exists a ns, In (a, ns) pm /\ i = ns ++ v) /\ forall a ns v', In (a, ns) pm -> i = ns ++ v' -> String.length v <= String.length v'.
Definition name_of (pm : list (string * string)) (p : iriref) (v : string) : Prop :=
  match p with Iri i => named_after pm i v | Prefixed _ l => v = l end.
Definition nameable (sch : schema) (p : iriref) : Prop := forall pm, s_prefixes sch = Some pm -> exists v, name_of pm p v.

(* The shape that a shape expression is, after following references. *)
Inductive reaches (sch : schema) : sexpr -> option texpr -> Prop :=
| R_shape c x te a n ex : reaches sch (SShape c x te a n ex) te
| R_ref i l e te : stands_for (prefixes_of sch) i l -> labelled sch l e -> reaches sch e te -> reaches sch (SRef (LIri i)) te.

(* The shape asked for: that with the label, or else the start shape, or else the first. *)
Definition chosen (sch : schema) (shape : option iriref) (e : sexpr) : Prop :=
  match shape with
  | Some i => exists l, stands_for (prefixes_of sch) i l /\ labelled sch l e
  | None => s_start sch = Some e \/ s_start sch = None /\ exists d ds, s_shapes sch = Some (d :: ds) /\ d_expr d = e
  end.

Definition convertible (sch : schema) (te : option texpr) : Prop :=
  forall te', te = Some te' -> forward te' /\ forall p, mentions te' p -> nameable sch p.

(* ------------------------------------------------------------------ *)
(* What a query asks for, and what a shape asks for                     *)

Section Nodes.
Context {T : Type}.
Variable g : T -> string -> T -> Prop.

(* A node is an answer of a query if the variables have values so that all patterns are triples of the graph and the variable for
   the focus node has that node. *)
Definition answer (this : string) (q : query) (n : T) : Prop :=
  exists mu : string -> T, mu this = n /\
    forall t, In t (q_patterns q) -> exists i, stands_for (match q_prefixes q with Some pm => pm | None => [] end) (t_pred t) i /\ g (mu (t_subj t)) i (mu (t_obj t)).

(* A node has a value for every property that is mentioned. *)
Definition has_all (sch : schema) (te : option texpr) (n : T) : Prop :=
  forall te' p, te = Some te' -> mentions te' p -> exists i o, stands_for (prefixes_of sch) p i /\ g n i o.

(* Different properties have different names, and none has the name of the focus variable. *)
Definition apart (this : string) (sch : schema) (te : option texpr) : Prop :=
  forall te' pm, te = Some te' -> s_prefixes sch = Some pm ->
    (forall p, mentions te' p -> ~ name_of pm p this) /\
    forall p p' v i i', mentions te' p -> mentions te' p' -> name_of pm p v -> name_of pm p' v -> stands_for pm p i -> stands_for pm p' i' -> i = i'.
(* Nor is the focus variable one of those that are made up if there are no prefixes. *)
Definition focus_apart (this : string) (sch : schema) : Prop := s_prefixes sch = None -> String.prefix "var" this = false.

(* The triples with a subject. *)
Definition outgoing (n : T) (arcs : list (string * T)) : Prop := NoDup arcs /\ forall p o, In (p, o) arcs <-> g n p o.

(* Repetitions: min and max are 1 unless given, and -1 is no bound. *)
Definition within (mn mx : option Z) (k : nat) : Prop :=
  (match mn with Some z => z | None => 1 end <= Z.of_nat k)%Z /\
  match mx with Some z => z = (-1)%Z \/ (Z.of_nat k <= z)%Z | None => (k <= 1)%nat end.

(* The meaning of triple expressions in ShEx; [value] tells which nodes have a shape expression. *)
Variable value : sexpr -> T -> Prop.
Variable pm : list (string * string).
Definition value_ok (ve : option sexpr) (o : T) : Prop := match ve with Some e => value e o | None => True end.
Fixpoint matches (te : texpr) (ts : list (string * T)) {struct te} : Prop :=
  let all := fix all (l : list texpr) (ts : list (string * T)) : Prop :=
    match l with
    | [] => ts = []
    | te :: l => exists a b, Permutation ts (a ++ b) /\ matches te a /\ all l b
    end in
  let any := fix any (l : list texpr) (ts : list (string * T)) : Prop :=
    match l with [] => False | te :: l => matches te ts \/ any l ts end in
  match te with
  | TEach _ l mn mx _ _ => exists parts, Permutation ts (List.concat parts) /\ within mn mx (List.length parts) /\ Forall (all l) parts
  | TOne _ l mn mx _ _ => exists parts, Permutation ts (List.concat parts) /\ within mn mx (List.length parts) /\ Forall (any l) parts
  | TTriple _ neg inv p ve mn mx _ _ =>
      neg <> Some true /\ inv <> Some true /\ within mn mx (List.length ts) /\ Forall (fun t => stands_for pm p (fst t) /\ value_ok ve (snd t)) ts
  | TRef _ => False
  end.
(* A node has a shape if its triples can be divided so that some match the expression and the others are allowed: those with a
   property that is mentioned fit no constraint and are listed as EXTRA, and the shape is not closed if there are others. *)
Definition has_shape (closed : option bool) (extra : option (list iriref)) (te : option texpr) (arcs : list (string * T)) : Prop :=
  exists taken rest, Permutation arcs (taken ++ rest) /\ match te with Some te => matches te taken | None => taken = [] end /\
    forall i o, In (i, o) rest ->
      let listed := exists l x, extra = Some l /\ In x l /\ stands_for pm x i in
      (forall te' p ve, te = Some te' -> In (p, ve) (constraints te') -> stands_for pm p i -> listed /\ ~ value_ok ve o) /\
      (closed = Some true -> listed).

(* Every constraint has to be matched. *)
Definition at_least_one (mn : option Z) : Prop := match mn with Some z => (1 <= z)%Z | None => True end.
Fixpoint required (te : texpr) : Prop :=
  match te with
  | TEach _ l mn _ _ _ => at_least_one mn /\ fold_right and True (List.map required l)
  | TTriple _ _ _ _ _ mn _ _ _ => at_least_one mn
  | _ => False
  end.
(* Any number of values, but at least one, of any kind. *)
Fixpoint unrestricted (te : texpr) : Prop :=
  match te with
  | TEach _ l mn mx _ _ => within mn mx 1 /\ fold_right and True (List.map unrestricted l)
  | TTriple _ neg _ _ ve mn mx _ _ => neg <> Some true /\ ve = None /\ within mn None 1 /\ mx = Some (-1)%Z
  | _ => False
  end.
(* Every property has one constraint. *)
Definition once (te : texpr) : Prop :=
  forall l1 c l2 c' l3 i, constraints te = (l1 ++ c :: l2 ++ c' :: l3)%list -> stands_for pm (fst c) i -> ~ stands_for pm (fst c') i.
End Nodes.

(* ------------------------------------------------------------------ *)
(* The text of a query                                                  *)

(* A text for an IRI. *)
Definition iri_text (pm : list (string * string)) (s i : string) : Prop :=
  s = "<" ++ i ++ ">" \/ exists a ns l, s = a ++ ":" ++ l /\ In (a, ns) pm /\ i = ns ++ l.
(* The lines for the prefixes. *)
Inductive prefix_lines : list (string * string) -> string -> Prop :=
| L_nil : prefix_lines [] ""
| L_cons a i pm r : prefix_lines pm r -> prefix_lines ((a, i) :: pm) ("prefix " ++ a ++ ": <" ++ i ++ ">" ++ newline ++ r).
(* The lines for the patterns. *)
Inductive pattern_lines (pm : list (string * string)) : list pattern -> string -> Prop :=
| P_nil : pattern_lines pm [] ""
| P_cons t ts p i r : stands_for pm (t_pred t) i -> iri_text pm p i -> pattern_lines pm ts r ->
    pattern_lines pm (t :: ts) (" ?" ++ t_subj t ++ " " ++ p ++ " ?" ++ t_obj t ++ " ." ++ newline ++ r).
End Spec.
