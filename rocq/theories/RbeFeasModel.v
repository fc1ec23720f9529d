(** Model of the feasibility refutation of rudof, rbe/src/feasibility.rs.

    Simplification: the two [HashMap]s of bounds are total functions; a missing
    entry is 0 (rbe/src/feasibility.rs:61-67). *)

Require Import List Arith Bool.
Import ListNotations.
From Verif Require Import RbeModel.

(** [Iterator::enumerate] *)
Definition enumerate {A} (l : list A) : list (nat * A) := combine (seq 0 (length l)) l.

Section Feasibility.
  Variables (lo hi : nat -> nat).

  (** rbe/src/feasibility.rs:70-77 [zero] *)
  Fixpoint f_zero (e : rbe) : bool :=
    match e with
    | Fail _ | Empty => true
    | Symbol v _ => lo v =? 0
    | And vs | Or vs => forallb f_zero vs
    | Star v | Plus v | Repeat v _ => f_zero v
    end.

  (** rbe/src/feasibility.rs:142-153 [once] *)
  Fixpoint f_once (e : rbe) : bool :=
    match e with
    | Fail _ => false
    | Empty => true
    | Symbol v c => (cmin c =? 0) || (cmin c <=? hi v)
    | And vs => forallb f_once vs
    | Or vs => existsb f_once vs
    | Star _ => true
    | Plus v => f_once v
    | Repeat v c => (cmin c =? 0) || f_once v
    end.

  (** rbe/src/feasibility.rs:115-139 [fi] *)
  Fixpoint f_fi (e : rbe) : bool :=
    match e with
    | Fail _ => false
    | Empty => true
    | Symbol v c =>
        ((cmin c =? 0) || (cmin c <=? hi v))
        && (negb (max_eqb (cmax c) (IntMax 0)) || (lo v =? 0))
    | And vs => forallb f_fi vs
    | Or vs => forallb (fun v => f_zero v || f_fi v) vs
    | Star v => f_zero v || f_fi v
    | Plus v => f_fi v && f_once v
    | Repeat v c =>
        if max_eqb (cmax c) (IntMax 0) then f_zero v
        else if cmin c =? 0 then f_zero v || f_fi v
        else f_fi v && f_once v
    end.

  (** rbe/src/feasibility.rs:80-111 [fx] *)
  Fixpoint f_fx (e : rbe) : bool :=
    match e with
    | Fail _ => false
    | Empty => true
    | Symbol v c =>
        (match cmax c with Unbounded => true | IntMax n => lo v <=? n end)
        && (cmin c <=? hi v)
    | And vs => forallb f_fx vs
    | Or vs =>
        let fs := map f_fx vs in
        existsb (fun p : nat * bool =>
                   let (i, fv) := p in
                   fv && forallb (fun q : nat * rbe => let (j, other) := q in (j =? i) || f_zero other)
                                 (enumerate vs))
                (enumerate fs)
    | Star v => f_zero v || (f_fi v && f_once v)
    | Plus v => f_fi v && f_once v
    | Repeat v c =>
        if max_eqb (cmax c) (IntMax 0) then f_zero v
        else if (cmin c =? 0) && max_eqb (cmax c) (IntMax 1) then f_zero v || f_fx v
        else if cmin c =? 0 then f_zero v || (f_fi v && f_once v)
        else f_fi v && f_once v
    end.

  (** rbe/src/feasibility.rs:44-46 [Rbe::feasible] *)
  Definition feasible (e : rbe) : bool := f_fx e.
End Feasibility.
