(** Specification of regular bag expressions: the bag language of an expression.

    A bag is a multiplicity function.  Nothing here mentions derivatives, intervals
    or nullability; only the syntax of expressions is shared with the model. *)

Require Import List Arith.
Import ListNotations.
From Verif Require Import RbeModel.

(** multiplicities *)
Definition mbag := nat -> nat.

Definition beq (b c : mbag) : Prop := forall a, b a = c a.
Definition bsum (b c : mbag) : mbag := fun a => b a + c a.
Definition bzero : mbag := fun _ => 0.
Definition bone (x : nat) : mbag := fun a => if x =? a then 1 else 0.

(** the bag listed by [l] *)
Definition bag_of (l : list nat) : mbag := fun a => count_occ Nat.eq_dec l a.

(** [n] is within the bound [m] *)
Definition le_max (n : nat) (m : max) : Prop :=
  match m with Unbounded => True | IntMax k => n <= k end.

(** the order of the bounds: every number within [a] is within [b] *)
Definition max_le (a b : max) : Prop := forall n, le_max n a -> le_max n b.

Definition in_card (n : nat) (c : card) : Prop := cmin c <= n /\ le_max n (cmax c).

(** sums of exactly [k] bags of [P] *)
Fixpoint pow (P : mbag -> Prop) (k : nat) (b : mbag) : Prop :=
  match k with
  | 0 => beq b bzero
  | S k => exists b1 b2, beq b (bsum b1 b2) /\ P b1 /\ pow P k b2
  end.

(** sums of one bag of each member of [Ps] *)
Fixpoint sum_of (Ps : list (mbag -> Prop)) (b : mbag) : Prop :=
  match Ps with
  | [] => beq b bzero
  | P :: Ps => exists b1 b2, beq b (bsum b1 b2) /\ P b1 /\ sum_of Ps b2
  end.

(** some member of [Ps] holds *)
Fixpoint any_of (Ps : list (mbag -> Prop)) (b : mbag) : Prop :=
  match Ps with
  | [] => False
  | P :: Ps => P b \/ any_of Ps b
  end.

(** the language of an expression *)
Fixpoint lang (e : rbe) : mbag -> Prop :=
  match e with
  | Fail _ => fun _ => False
  | Empty => fun b => beq b bzero
  | Symbol v c => fun b => (forall a, a <> v -> b a = 0) /\ in_card (b v) c
  | And vs => sum_of (map lang vs)
  | Or vs => any_of (map lang vs)
  | Star v => fun b => exists k, pow (lang v) k b
  | Plus v => fun b => exists k, 1 <= k /\ pow (lang v) k b
  | Repeat v c => fun b => exists k, in_card k c /\ pow (lang v) k b
  end.

(** [x] occurs in [e] *)
Fixpoint occurs (x : nat) (e : rbe) : Prop :=
  match e with
  | Fail _ | Empty => False
  | Symbol v _ => x = v
  | And vs | Or vs => fold_right (fun e P => occurs x e \/ P) False vs
  | Star v | Plus v | Repeat v _ => occurs x v
  end.

(** all sub-expressions satisfy [P] *)
Fixpoint everywhere (P : rbe -> Prop) (e : rbe) : Prop :=
  P e /\
  match e with
  | Fail _ | Empty | Symbol _ _ => True
  | And vs | Or vs => fold_right (fun e Q => everywhere P e /\ Q) True vs
  | Star v | Plus v | Repeat v _ => everywhere P v
  end.

(** well-formed expressions: no empty choice, and the bounds of a repeated group
    are in order *)
Definition wf_node (e : rbe) : Prop :=
  match e with
  | Or [] => False
  | Repeat _ c => le_max (cmin c) (cmax c)
  | _ => True
  end.
Definition wf (e : rbe) : Prop := everywhere wf_node e.

(** no group is repeated [{0,0}] *)
Definition no00_node (e : rbe) : Prop :=
  match e with Repeat _ c => cmax c <> IntMax 0 | _ => True end.
Definition no00 (e : rbe) : Prop := everywhere no00_node e.

(** no symbol occurs twice *)
Fixpoint single (e : rbe) : Prop :=
  match e with
  | Fail _ | Empty | Symbol _ _ => True
  | And vs | Or vs =>
      fold_right (fun e P => single e /\ P) True vs /\
      ForallOrdPairs (fun e f => forall x, occurs x e -> occurs x f -> False) vs
  | Star v | Plus v | Repeat v _ => single v
  end.

(** no group with explicit bounds [{m,n}] anywhere / below another repetition *)
Fixpoint no_repeat (e : rbe) : Prop :=
  match e with
  | Fail _ | Empty | Symbol _ _ => True
  | And vs | Or vs => fold_right (fun e P => no_repeat e /\ P) True vs
  | Star v | Plus v => no_repeat v
  | Repeat _ _ => False
  end.
Fixpoint shallow_repeat (e : rbe) : Prop :=
  match e with
  | Fail _ | Empty | Symbol _ _ => True
  | And vs | Or vs => fold_right (fun e P => shallow_repeat e /\ P) True vs
  | Star v | Plus v | Repeat v _ => no_repeat v
  end.

(** a bag without the symbols that do not occur in [e] *)
Definition restrict (P : nat -> Prop) (b b' : mbag) : Prop :=
  forall a, (P a -> b' a = b a) /\ (~ P a -> b' a = 0).

(** no failing sub-expression: expressions as users write them *)
Definition no_fail (e : rbe) : Prop :=
  everywhere (fun e => match e with Fail _ => False | _ => True end) e.

(** no empty conjunction, and every group with explicit bounds is mandatory *)
Definition open_node (e : rbe) : Prop :=
  match e with And [] => False | Repeat _ c => 1 <= cmin c | _ => True end.
Definition open_safe (e : rbe) : Prop := everywhere open_node e.
