(** Recursive validation: [Engine::prove] with its hypotheses and its cache.

    shex_validation/src/engine.rs lines 48-70 (Engine), 79-113 (validate_pending), 115-139
    (add_checked_pos, add_checked_neg), 282-336 (prove), 338-413 (check_node_idx), 415-459
    (check_descendants); shex_validation/src/ref_typing.rs.

    This file is parametric in what the rest of the engine contributes: the dependencies of
    a pair, the verdict of its own shape expression under a typing, its descendants. They
    are the functions of EngineModel.v.

    Simplifications: a pair of a node and a shape is a number. Reasons and errors carry no
    payload, so a verdict is a boolean. The hash set of candidates is iterated in the order
    given by [ord], which may change at every call (it sees the number of calls so far). The
    recursion is on fuel. *)
From Coq Require Import List Arith Bool.
Import ListNotations.
From Verif Require Import GraphModel.

(** [Fuel] is lack of fuel, [Err] the error of the outer [Result] *)
Inductive outcome := Fuel | Err | Verdict (b : bool).

(** the fields of [Engine] that [prove] uses; [tick] counts the calls *)
Record state := mkState { cache : list (nat * bool); touched : bool; tick : nat }.

(** engine.rs lines 60-70 [new] *)
Definition fresh : state := mkState [] false 0.

Fixpoint lookup (k : nat) (c : list (nat * bool)) : option bool :=
  match c with
  | [] => None
  | (k', b) :: r => if Nat.eqb k k' then Some b else lookup k r
  end.

Section Prove.
  (** engine.rs lines 232-276 [dep] *)
  Variable dep : nat -> list nat.
  (** the shape index of the pair is not in the schema *)
  Variable missing : nat -> bool.
  Variable is_abstract : nat -> bool.
  (** the pairs of the node with the descendants of the shape *)
  Variable desc : nat -> list nat.
  (** engine.rs lines 461-607 [check_node_shape_expr] under a typing *)
  Variable check : nat -> (nat -> bool) -> bool.
  Variable ord : nat -> list nat -> list nat.

  (** lines 309-318: prove the candidates and collect those that passed *)
  Fixpoint prove_each (rec : nat -> state -> outcome * state) (l : list nat) (passed : list nat) (s : state)
      : (outcome + list nat) * state :=
    match l with
    | [] => (inr passed, s)
    | k :: r =>
        match rec k s with
        | (Verdict true, s') => prove_each rec r (k :: passed) s'
        | (Verdict false, s') => prove_each rec r passed s'
        | (o, s') => (inl o, s')
        end
    end.

  (** lines 415-459 [check_descendants] *)
  Fixpoint first_proved (rec : nat -> state -> outcome * state) (l : list nat) (s : state) : outcome * state :=
    match l with
    | [] => (Verdict false, s)
    | k :: r =>
        match rec k s with
        | (Verdict false, s') => first_proved rec r s'
        | (o, s') => (o, s')
        end
    end.

  (** lines 338-413 [check_node_idx]; [missing] has been ruled out by [dep] *)
  Definition check_idx (rec : nat -> state -> outcome * state) (k : nat) (typing : list nat) (s : state) : outcome * state :=
    if is_abstract k then
      match desc k with
      | [] => (Err, s)
      | ds => first_proved rec ds s
      end
    else if check k (fun j => mem j typing) then (Verdict true, s)
    else first_proved rec (desc k) s.

  (** lines 282-336 [prove]; [hyp] with the last pushed pair first *)
  Fixpoint prove (fuel : nat) (k : nat) (hyp : list nat) (s : state) : outcome * state :=
    match fuel with
    | 0 => (Fuel, s)
    | S f =>
        match lookup k (cache s) with
        | Some b => (Verdict b, s)
        | None =>
            let saved := touched s in
            let hyp' := k :: hyp in
            if missing k then (Err, mkState (cache s) false (S (tick s)))
            else
              let candidates := nodup Nat.eq_dec (dep k) in
              let s1 := mkState (cache s) (existsb (fun c => mem c hyp') candidates) (S (tick s)) in
              let cleaned := ord (tick s) (filter (fun c => negb (mem c hyp')) candidates) in
              match prove_each (fun j st => prove f j hyp' st) cleaned [] s1 with
              | (inl o, s2) => (o, s2)
              | (inr passed, s2) =>
                  match check_idx (fun j st => prove f j hyp' st) k (hyp' ++ passed) s2 with
                  | (Verdict b, s3) =>
                      (Verdict b,
                       mkState (if touched s3 then cache s3 else (k, b) :: cache s3) (saved || touched s3) (tick s3))
                  | (o, s3) => (o, s3)
                  end
              end
        end
    end.

  (** lines 79-113 [validate_pending], without start actions: the pending atoms are popped
      from the end; the atoms checked, in order, and the engine at the end *)
  Fixpoint validate_pending (fuel : nat) (pending : list nat) (s : state) : option (list (nat * bool)) * state :=
    match pending with
    | [] => (Some [], s)
    | k :: r =>
        match prove fuel k [] s with
        | (Verdict b, s') =>
            match validate_pending fuel r s' with
            | (Some l, s'') => (Some ((k, b) :: l), s'')
            | (None, s'') => (None, s'')
            end
        | (_, s') => (None, s')
        end
    end.
End Prove.
