(** Property C10: matching a neighbourhood against a table of triple constraints.
    [IOk] items are the [Ok] answers of the iterator, [IErr] its errors. *)

Require Import List Arith Bool Permutation Lia.
Import ListNotations.
From Verif Require Import RbeModel RbeSpec RbeFeasModel PendingModel PendingSpec
  TableModel TableSpec TableLemmas RbeProps.

(** A successful item exists iff the neighbours can be distributed over the triple
    constraints so that each satisfies the condition of its constraint and the
    multiset of constraints is in the language of the expression. *)
Theorem C10_decides_assignment (eval : nat -> nat -> bool) (t : table) (e : rbe) (vs : list (nat * nat)) :
  table_for t e -> vs <> [] -> (exists kv, In kv vs /\ exists c, fits eval t kv c) ->
  ((exists p, In (IOk p) (matches eval t vs)) <->
   exists cs, assignment eval t vs cs /\ lang e (bag_of cs)).
Proof. exact (table_decides eval t e vs). Qed.
Print Assumptions C10_decides_assignment.

(** The pending table of a successful item is the set of references left open by one
    such distribution, with the predicates through which they were reached. *)
Theorem C10_item_sound (eval : nat -> nat -> bool) (t : table) (e : rbe) (vs : list (nat * nat)) (p : pending) :
  table_for t e -> (exists kv, In kv vs /\ exists c, fits eval t kv c) ->
  In (IOk p) (matches eval t vs) ->
  exists cs, assignment eval t vs cs /\ lang e (bag_of cs) /\
    (forall v r k, triple p v r k <-> leaves t vs cs v r k) /\
    (forall v r, pair p v r <-> exists k, leaves t vs cs v r k).
Proof. exact (table_leaves eval t e vs p). Qed.
Print Assumptions C10_item_sound.

(** Conversely every such distribution is produced by the iterator. *)
Theorem C10_item_complete (eval : nat -> nat -> bool) (t : table) (e : rbe) (vs : list (nat * nat)) (cs : list nat) :
  table_for t e -> vs <> [] -> assignment eval t vs cs -> lang e (bag_of cs) ->
  exists p, In (IOk p) (matches eval t vs) /\
    (forall v r k, triple p v r k <-> leaves t vs cs v r k) /\
    (forall v r, pair p v r <-> exists k, leaves t vs cs v r k).
Proof. exact (table_every eval t e vs cs). Qed.
Print Assumptions C10_item_complete.

(** An error item is definitive: no distribution exists and no other item succeeds, so
    a caller may stop at the first error. *)
Theorem C10_error_definitive (eval : nat -> nat -> bool) (t : table) (e : rbe) (vs : list (nat * nat)) :
  table_for t e -> (exists kv, In kv vs /\ exists c, fits eval t kv c) ->
  In IErr (matches eval t vs) ->
  (forall cs, ~ assignment eval t vs cs) /\ (forall p, ~ In (IOk p) (matches eval t vs)).
Proof. exact (table_error eval t e vs). Qed.
Print Assumptions C10_error_definitive.

(** Without neighbours the answer is that of the empty bag. *)
Theorem C10_no_neighbours (eval : nat -> nat -> bool) (t : table) (e : rbe) :
  table_for t e ->
  (matches eval t [] = [IOk p_empty] <-> lang e bzero) /\ (matches eval t [] = [IErr] <-> ~ lang e bzero).
Proof. exact (table_empty eval t e). Qed.
Print Assumptions C10_no_neighbours.

(** The pre-check rejects only neighbourhoods none of whose subsets can be distributed. *)
Theorem C10_precheck_sound (eval : nat -> nat -> bool) (t : table) (e : rbe) (vs : list (nat * nat)) :
  table_for t e -> feasible_neighs eval t vs = false ->
  forall vs' rest cs, Permutation (vs' ++ rest) vs -> assignment eval t vs' cs -> ~ lang e (bag_of cs).
Proof. exact (table_infeasible eval t e vs). Qed.
Print Assumptions C10_precheck_sound.

(** [{ p [7] ; p @S* ; q . ? }]; the payload test accepts the value equal to it *)
Definition ex_eval (kind v : nat) : bool := v =? kind.
Definition ex_expr : rbe :=
  And [Symbol 0 (mkCard 1 (IntMax 1)); Symbol 1 (mkCard 0 Unbounded); Symbol 2 (mkCard 0 (IntMax 1))].
Definition ex_table : table :=
  with_rbe (rs_from ex_expr)
    (snd (add_component 1 (CSingle None)
      (snd (add_component 0 (CRef 5) (snd (add_component 0 (CSingle (Some 7)) t_new)))))).

Lemma ex_table_for : table_for ex_table ex_expr.
Proof.
  split; [repeat constructor|]. split; [reflexivity|]. split; [reflexivity|].
  split; [concrete|]. split; [concrete|]. split; [concrete|]. intros _. simpl. tauto.
Qed.

Example C10_hypotheses_met :
  table_for ex_table ex_expr /\ fits ex_eval ex_table (0, 7) 0 /\
  matches ex_eval ex_table [(0, 7); (0, 8); (1, 9)] = [IOk [(8, [(5, [0])])]] /\
  matches ex_eval ex_table [(0, 8); (1, 9)] = [] /\
  matches ex_eval ex_table [] = [IErr] /\
  feasible_neighs ex_eval ex_table [(0, 8); (1, 9)] = false.
Proof.
  split; [exact ex_table_for|]. split; [exists (CSingle (Some 7)); split; [split; reflexivity|reflexivity]|].
  repeat split; reflexivity.
Qed.

Example C10_error_met :
  let t := with_rbe (rs_from (And [Symbol 0 (mkCard 1 (IntMax 1)); Symbol 1 (mkCard 1 (IntMax 1))]))
             (snd (add_component 1 (CSingle (Some 8)) (snd (add_component 0 (CSingle (Some 7)) t_new)))) in
  fits ex_eval t (0, 7) 0 /\ matches ex_eval t [(0, 7); (1, 9)] = [IErr].
Proof. split; [exists (CSingle (Some 7)); repeat split|reflexivity]. Qed.

(** The hypothesis that some neighbour fits some constraint is needed: when none does,
    the iterator forgets the neighbours.  The expression [p [1]? ; p [2]?] accepts a
    node whose only [p] is 3. *)
Theorem C10_no_candidate_refuted : exists (eval : nat -> nat -> bool) (t : table) (e : rbe) (vs : list (nat * nat)),
  table_for t e /\ vs <> [] /\ (exists p, In (IOk p) (matches eval t vs)) /\
  ~ exists cs, assignment eval t vs cs /\ lang e (bag_of cs).
Proof.
  set (e := And [Symbol 0 (mkCard 0 (IntMax 1)); Symbol 1 (mkCard 0 (IntMax 1))]).
  set (t := with_rbe (rs_from e) (snd (add_component 0 (CSingle (Some 2)) (snd (add_component 0 (CSingle (Some 1)) t_new))))).
  exists ex_eval, t, e, [(0, 3)]. split.
  { split; [repeat constructor|]. split; [reflexivity|]. split; [reflexivity|].
    split; [concrete|]. split; [concrete|]. split; [concrete|]. intros _. simpl. tauto. }
  split; [discriminate|]. split; [exists p_empty; left; reflexivity|].
  intros (cs & A & _). inversion A as [|? c ? ? (cd & [_ C] & S) _]; subst.
  destruct c as [|[|c]]; simpl in C; [injection C as <-; discriminate|injection C as <-; discriminate|].
  destruct c; discriminate.
Qed.
Print Assumptions C10_no_candidate_refuted.

(** The same for one constraint on the predicate: the neighbour is checked and an error
    is produced, so the answer depends on how many constraints share the predicate. *)
Example C10_one_constraint_differs :
  let t := with_rbe (rs_from (Symbol 0 (mkCard 0 (IntMax 1)))) (snd (add_component 0 (CSingle (Some 1)) t_new)) in
  matches ex_eval t [(0, 3)] = [IErr].
Proof. reflexivity. Qed.
