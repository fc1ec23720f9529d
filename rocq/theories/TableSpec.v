(** Specification of neighbourhood matching: assignments of neighbours to triple
    constraints. *)

Require Import List.
From Verif Require Import RbeModel RbeSpec PendingModel PendingSpec TableModel.

(** the value satisfies the condition only if [v'] has shape [r] *)
Fixpoint needs (c : mcond) (v v' r : nat) : Prop :=
  match c with
  | CSingle _ => False
  | CRef r0 => v' = v /\ r = r0
  | CAnd cs => fold_right (fun c P => needs c v v' r \/ P) False cs
  end.

Section TableSpec.
  Variable eval : nat -> nat -> bool.

  (** the value satisfies the condition, references being postponed *)
  Fixpoint satisfies (c : mcond) (v : nat) : Prop :=
    match c with
    | CSingle (Some kind) => eval kind v = true
    | CSingle None => True
    | CRef _ => True
    | CAnd cs => fold_right (fun c P => satisfies c v /\ P) True cs
    end.

  (** tables obtained by registering components and setting the expression *)
  Inductive tbuilt : table -> Prop :=
  | tbuilt_new : tbuilt t_new
  | tbuilt_add k c t : tbuilt t -> tbuilt (snd (add_component k c t))
  | tbuilt_rbe r t : tbuilt t -> tbuilt (with_rbe r t).

  (** component [c] of the table is a triple constraint on the predicate [k] with
      condition [cd] *)
  Definition component (t : table) (c k : nat) (cd : mcond) : Prop :=
    nth_error (t_ckey t) c = Some k /\ nth_error (t_cond t) c = Some cd.

  (** the neighbour [kv] can be assigned to component [c] *)
  Definition fits (t : table) (kv : nat * nat) (c : nat) : Prop :=
    exists cd, component t c (fst kv) cd /\ satisfies cd (snd kv).

  (** one component per neighbour *)
  Definition assignment (t : table) (vs : list (nat * nat)) (cs : list nat) : Prop :=
    Forall2 (fits t) vs cs.

  (** the reference [r] of [v'] that the assignment leaves open, seen through the
      predicate [k] *)
  Definition leaves (t : table) (vs : list (nat * nat)) (cs : list nat) (v' r k : nat) : Prop :=
    exists v c cd, In ((k, v), c) (combine vs cs) /\ component t c k cd /\ needs cd v v' r.
End TableSpec.

(** a table for the expression [e], closed, with [e] in the class on which the bag
    matcher is exact (see C01 and C03) *)
Definition table_for (t : table) (e : rbe) : Prop :=
  tbuilt t /\ t_rbe t = rs_from e /\ t_open t = false /\
  wf e /\ no00 e /\ no_fail e /\ (single e -> shallow_repeat e).
