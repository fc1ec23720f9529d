(** Model of the neighbourhood matcher of rudof, rbe/src/rbe_table.rs,
    rbe/src/match_cond.rs and rbe/src/empty_iter.rs.

    Simplifications: keys (predicates), values and references are naturals; the
    context that accompanies a value is part of the value; errors carry no payload;
    the iterator returned by [matches] is the list of the items it yields when
    drained (the recursive call that skips a rejected combination is unrolled, its
    stack depth is not modelled). *)

Require Import List Arith Bool.
Import ListNotations.
From Verif Require Import RbeModel RbeFeasModel PendingModel.

(** rbe/src/match_cond.rs:40-52; a single condition is identified by its payload,
    [None] when it has none (139-155) *)
Inductive mcond :=
| CSingle (kind : option nat)
| CRef (r : nat)
| CAnd (cs : list mcond).

Section Table.
  (** [MatchKind::eval] (rbe/src/match_cond.rs:10-18) of the payloads: an arbitrary
      test that answers [Ok] of an empty pending table or an error, which is what the
      only instance of the code does (shex_ast/src/ast/cond_kind.rs:51-...) *)
  Variable eval : nat -> nat -> bool.

  (** rbe/src/match_cond.rs:78-88 [MatchCond::matches], 191-196 [SingleCond::matches] *)
  Fixpoint cond_matches (c : mcond) (v : nat) : option pending :=
    match c with
    | CSingle (Some kind) => if eval kind v then Some p_empty else None
    | CSingle None => Some p_empty
    | CRef r => Some (p_from_pair v r)
    | CAnd cs =>
        fold_left (fun acc c =>
                     match acc with
                     | None => None
                     | Some current => match cond_matches c v with
                                       | None => None
                                       | Some new => Some (p_merge current new)
                                       end
                     end) cs (Some p_empty)
    end.

  (** rbe/src/rbe_table.rs:30-53.  Component [c] is the [c]-th registered one, so the
      maps from components to conditions and keys are lists. *)
  Record table := mkTable {
    t_rbe : rbe_struct;
    t_keys : list (nat * list nat);
    t_cond : list mcond;
    t_ckey : list nat;
    t_open : bool }.

  (** rbe/src/rbe_table.rs:55-73 [default] *)
  Definition t_new : table := mkTable rs_empty [] [] [] false.

  (** rbe/src/rbe_table.rs:135-152 [add_component]; the new component is returned *)
  Definition add_component (k : nat) (cd : mcond) (t : table) : nat * table :=
    let c := length (t_cond t) in
    (c, mkTable (t_rbe t)
                (ix_upd k (fun o => match o with
                                    | Some cs => set_insert cs c
                                    | None => [c]
                                    end) (t_keys t))
                (t_cond t ++ [cd]) (t_ckey t ++ [k]) (t_open t)).

  (** rbe/src/rbe_table.rs:154-156 [with_rbe] *)
  Definition with_rbe (r : rbe_struct) (t : table) : table :=
    mkTable r (t_keys t) (t_cond t) (t_ckey t) (t_open t).

  (** rbe/src/rbe_table.rs:87-89 [get_condition] and 208, 227 (the [unwrap]ed lookups) *)
  Definition cond_of (t : table) (c : nat) : option mcond := nth_error (t_cond t) c.

  (** the condition of component [c] on value [v]; [None] when it answers an error *)
  Definition try_cond (t : table) (c v : nat) : option pending :=
    match cond_of t c with Some cd => cond_matches cd v | None => None end.

  (** rbe/src/rbe_table.rs:167, 200 *)
  Definition components_of (t : table) (k : nat) : list nat :=
    or_default [] (ix_get k (t_keys t)).

  Definition is_some {A} (o : option A) : bool := match o with Some _ => true | None => false end.

  (** rbe/src/rbe_table.rs:164-179 [feasible_neighs] *)
  Definition hi_of (t : table) (values : list (nat * nat)) (c : nat) : nat :=
    list_sum (map (fun kv : nat * nat =>
                     length (filter (fun c' => (c' =? c) && is_some (try_cond t c' (snd kv)))
                                    (components_of t (fst kv)))) values).
  Definition feasible_neighs (t : table) (values : list (nat * nat)) : bool :=
    feasible (fun _ => 0) (hi_of t values) (rs_rbe (t_rbe t)).

  (** rbe/src/rbe_table.rs:199-233: the candidate components of a value *)
  Definition candidates_of (t : table) (kv : nat * nat) : list nat :=
    let cs := components_of t (fst kv) in
    if 1 <? length cs then filter (fun c => is_some (try_cond t c (snd kv))) cs else cs.

  (** itertools [multi_cartesian_product]: the last list varies fastest *)
  Fixpoint cart {A} (ls : list (list A)) : list (list A) :=
    match ls with
    | [] => [[]]
    | l :: ls => flat_map (fun x => map (cons x) (cart ls)) l
    end.

  (** an item of the iterator *)
  Inductive item := IOk (p : pending) | IErr.

  (** rbe/src/rbe_table.rs:533-552: check the conditions of a combination in order *)
  Fixpoint check_conds (t : table) (p : pending) (vs : list (nat * nat)) (cs : list nat) : option pending :=
    match vs, cs with
    | (k, v) :: vs, c :: cs =>
        match try_cond t c v with
        | Some new => check_conds t (p_merge p (p_annotate k new)) vs cs
        | None => None
        end
    | _, _ => Some p
    end.

  (** rbe/src/rbe_table.rs:517-569 [IterCartesianProduct::next] on one combination:
      nothing when the combination is skipped *)
  Definition combination (t : table) (vs : list (nat * nat)) (cs : list nat) : list item :=
    match check_conds t p_empty vs cs with
    | None => [IErr]
    | Some p => match match_bag_interval (t_rbe t) cs (t_open t) with
                | None => [IOk p]
                | Some _ => []
                end
    end.

  (** rbe/src/rbe_cond.rs:188-201 [RbeCond::nullable] of the expression converted by
      [cnv_rbe] (rbe/src/empty_iter.rs:75-118) *)
  Fixpoint cond_nullable (e : rbe) : bool :=
    match e with
    | Fail _ => false
    | Empty => true
    | Symbol _ c => card_nullable c
    | And vs => forallb cond_nullable vs
    | Or vs => existsb cond_nullable vs
    | Star _ => true
    | Plus v => cond_nullable v
    | Repeat v c => if cmin c =? 0 then true else cond_nullable v
    end.

  (** rbe/src/empty_iter.rs:52-72 [EmptyIter::next] *)
  Definition empty_items (t : table) : list item :=
    if cond_nullable (rs_rbe (t_rbe t)) then [IOk p_empty] else [IErr].

  (** rbe/src/rbe_table.rs:181-281 [matches], drained *)
  Definition matches (t : table) (vs : list (nat * nat)) : list item :=
    let cands := map (candidates_of t) vs in
    if (match vs with [] => true | _ => false end) || (list_sum (map (@length nat) cands) =? 0)
    then empty_items t
    else flat_map (combination t vs) (cart cands).
End Table.
