(** References between shapes, and the sign they have. *)
From Coq Require Import List Arith Bool.
Import ListNotations.
From Verif Require Import GraphModel GraphSpec DepModel.

(** a condition on the value of a triple refers to [t] *)
Inductive cond_refers : cond -> nat -> Prop :=
| cond_refers_ref t : cond_refers (CondRef t) t
| cond_refers_and cs c t : In c cs -> cond_refers c t -> cond_refers (CondAnd cs) t.

(** [refers sch e w t]: the shape expression [e] mentions the shape [t], under an even
    ([Pos]) or odd ([Neg]) number of negations *)
Inductive refers (sch : schema) : sexpr -> posneg -> nat -> Prop :=
| refers_ref t : refers sch (SRef t) Pos t
| refers_value n conds exts c t : In c conds -> cond_refers c t -> refers sch (SShape n conds exts) Pos t
| refers_extends n conds exts t : In t exts -> refers sch (SShape n conds exts) Pos t
| refers_or l i e w t : In i l -> find sch i = Some e -> refers sch e w t -> refers sch (SOr l) w t
| refers_and l i e w t : In i l -> find sch i = Some e -> refers sch e w t -> refers sch (SAnd l) w t
| refers_not i e w t : find sch i = Some e -> refers sch e w t -> refers sch (SNot i) (change w) t.

(** the definition of [s] refers to [t] *)
Definition depends (sch : schema) (s : nat) (w : posneg) (t : nat) : Prop :=
  exists e, find sch s = Some e /\ refers sch e w t.

(** a cycle of references, one of them negated *)
Definition negative_cycle (sch : schema) : Prop :=
  cycle_through (fun s t => exists w, depends sch s w t) (fun s t => depends sch s Neg t).

(** no shape refers to the same shape both with and without negation *)
Definition one_sign (sch : schema) : Prop :=
  forall s t w w', depends sch s w t -> depends sch s w' t -> w = w'.

(** no shape extends another one, and conditions are single or a reference *)
Definition plain_cond (c : cond) : Prop := match c with CondAnd cs => forall t, ~ cond_refers (CondAnd cs) t | _ => True end.
Definition plain_expr (e : sexpr) : Prop :=
  match e with SShape _ conds exts => exts = [] /\ (forall c, In c conds -> plain_cond c) | _ => True end.
Definition plain (sch : schema) : Prop := forall i e, In (i, e) sch -> plain_expr e.
