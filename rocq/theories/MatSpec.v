(** When a materialised graph should conform to the schema it was made from.  The meaning of schemas is that of
    CompSpec; of the model of the materialiser only the syntax trees are used. *)
From Coq Require Import List Arith Bool ZArith.
Import ListNotations.
From Verif Require Import EngineModel CompModel CompSpec.

(** the label of the shape to start from: the start shape, or the first one declared *)
Definition start_label (sch : aschema) (l : nat) : Prop :=
  match a_start sch, a_shapes sch with
  | Some _, _ => l = start
  | None, d :: _ => l = d_id d
  | None, [] => False
  end.

(** ** no inclusions anywhere in the expression *)
Fixpoint no_inclusion (e : ase) : Prop :=
  match e with
  | AOr l | AAnd l => (fix all l := match l with [] => True | e :: r => no_inclusion e /\ all r end) l
  | ANot e => no_inclusion e
  | AShape _ _ (Some te) _ => no_inclusion_te te
  | _ => True
  end
with no_inclusion_te (e : ate) : Prop :=
  match e with
  | AEach _ l _ _ _ | AOne _ l _ _ _ => (fix all l := match l with [] => True | e :: r => no_inclusion_te e /\ all r end) l
  | ATc _ _ _ (Some v) _ _ _ => no_inclusion v
  | ATc _ _ _ None _ _ _ => True
  | AInc _ => False
  end.

(** ** what the map has to offer *)
Section Fillable.
  Variable eval : nat -> nat -> bool.
  Variable ext : nat -> bool.
  (** the map variable of a semantic action, and the value of a variable *)
  Variable key : nat -> option nat.
  Variable values : nat -> option nat.

  (** an action among these names a variable with this value *)
  Definition offered (acts : list nat) (v : nat) : Prop := exists a x, In a acts /\ key a = Some x /\ values x = Some v.

  Definition once_allowed (mn mx : option Z) : Prop := at_least mn 1 /\ at_most mx 1.
  (** a value that is not to be a new node *)
  Definition leaf (value : option ase) : Prop :=
    match value with Some (ARef _) | Some (AShape _ _ _ _) => False | _ => True end.

  (** the map says nothing about the expression *)
  Fixpoint silent (e : ate) : Prop :=
    match e with
    | AEach _ l _ _ _ | AOne _ l _ _ _ => (fix all l := match l with [] => True | e :: r => silent e /\ all r end) l
    | ATc _ _ _ value _ _ acts => leaf value /\ forall v, ~ offered acts v
    | AInc _ => False
    end.

  (** Groups allow a single pass; of a choice the map speaks about one alternative; the values offered are as many
      as the triple constraint allows and satisfy its value expression in whatever graph; no triple constraint is
      inverse; the triple constraints of a shape have different predicates. *)
  Fixpoint fillable (e : ase) : Prop :=
    match e with
    | AShape _ _ (Some te) _ => NoDup (predicates te) /\ fillable_te te
    | AShape _ _ None _ => True
    | ARef _ => True
    | AOr _ | AAnd _ | ANot _ | ANode _ | AExternal => forall g T n, sat eval ext g T e n
    end
  with fillable_te (e : ate) : Prop :=
    match e with
    | AEach _ l mn mx _ => once_allowed mn mx /\ (fix all l := match l with [] => True | e :: r => fillable_te e /\ all r end) l
    | AOne _ l mn mx _ =>
        once_allowed mn mx /\
        (fix one l := match l with
                      | [] => False
                      | e :: r =>
                          fillable_te e /\ (fix all l := match l with [] => True | e :: r => silent e /\ all r end) r \/
                          silent e /\ one r
                      end) l
    | ATc _ inv _ value mn mx acts =>
        inv <> Some true /\
        (leaf value ->
           (exists vs, NoDup vs /\ (forall v, In v vs <-> offered acts v) /\ at_least mn (length vs) /\ at_most mx (length vs)) /\
           forall v, offered acts v ->
             (forall g T, match value with None => True | Some e => sat eval ext g T e v end) /\ forall a, In a acts -> eval a v = true) /\
        match value with
        | Some e => ~ leaf value -> fillable e /\ once_allowed mn mx /\ forall a v, In a acts -> eval a v = true
        | None => True
        end
    | AInc _ => False
    end.

  Definition fillable_schema (sch : aschema) : Prop :=
    forall l e, declared [] sch l e -> no_inclusion e /\ fillable e.
End Fillable.

(** ** references *)

(** making a node of the shape calls for the shape of this label *)
Inductive calls (l : nat) : ase -> Prop :=
| calls_ref : calls l (ARef l)
| calls_shape closed extra te extends : calls_te l te -> calls l (AShape closed extra (Some te) extends)
with calls_te (l : nat) : ate -> Prop :=
| calls_each id es e mn mx acts : In e es -> calls_te l e -> calls_te l (AEach id es mn mx acts)
| calls_one id es e mn mx acts : In e es -> calls_te l e -> calls_te l (AOne id es mn mx acts)
| calls_tc id inv p e mn mx acts : calls l e -> calls_te l (ATc id inv p (Some e) mn mx acts).

Definition called (sch : aschema) (l : nat) : Prop :=
  (exists d, In d (a_shapes sch) /\ calls l (d_expr d)) \/ exists e, a_start sch = Some e /\ calls l e.
(** every shape that is called is declared *)
Definition all_declared (sch : aschema) : Prop := forall l, called sch l -> exists d, In d (a_shapes sch) /\ d_id d = l.
(** no shape calls itself, not even through others *)
Definition without_recursion (sch : aschema) : Prop :=
  exists rank : nat -> nat, forall d l, In d (a_shapes sch) -> calls l (d_expr d) -> rank l < rank (d_id d).
(** there is a shape to start from *)
Definition has_start (sch : aschema) : Prop := a_start sch <> None \/ a_shapes sch <> [].
