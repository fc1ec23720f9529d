(** C15 and C20: negative cycles and inheritance queries. *)
From Coq Require Import List Arith Bool Lia Permutation.
Import ListNotations.
From Verif Require Import GraphModel GraphSpec GraphLemmas GraphTopo.

(** * C20 *)

(** [descendants] terminates and its result has, without repetition, exactly the other
    shapes from which the given one is reached *)
Theorem C20_descendants (g : graph unit) (node : nat) :
  (exists fuel l, descendants fuel g node = Some l) /\
  (forall fuel l, descendants fuel g node = Some l ->
     NoDup l /\ forall x, In x l <-> x <> node /\ reach (edge g) x node).
Proof. exact (descendants_spec g node). Qed.
Print Assumptions C20_descendants.

Theorem C20_parents (g : graph unit) (node : nat) :
  (exists fuel l, parents fuel g node = Some l) /\
  (forall fuel l, parents fuel g node = Some l ->
     NoDup l /\ forall x, In x l <-> x <> node /\ reach (edge g) node x).
Proof. exact (parents_spec g node). Qed.
Print Assumptions C20_parents.

(** [has_cycles] terminates and tells whether some shape reaches itself *)
Theorem C20_has_cycles (g : graph unit) :
  (exists fuel r, has_cycles fuel g = Some r) /\
  (forall fuel r, has_cycles fuel g = Some r -> (r = true <-> exists a, on_cycle (edge g) a)).
Proof.
  destruct (toposort_spec g) as [(f & r & H) S]. split.
  - exists f, (negb r). unfold has_cycles. rewrite H. reflexivity.
  - intros fuel b Hb. unfold has_cycles in Hb. destruct (toposort_ok fuel g) as [r'|] eqn:E; [|discriminate].
    injection Hb as <-. rewrite <- (S fuel r' E). destruct r'; simpl; split; intro; congruence || reflexivity.
Qed.
Print Assumptions C20_has_cycles.

(** the edges of the graph are those inserted *)
Theorem C20_edges (es : list ((nat * nat) * unit)) (a b : nat) :
  edge (graph_of es) a b <-> In ((a, b), tt) es.
Proof.
  rewrite graph_of_edge. split; [intros ([] & H); exact H|]. intro H. exists tt. exact H.
Qed.
Print Assumptions C20_edges.

Definition ex_inh : graph unit := graph_of [((3, 1), tt); ((3, 2), tt); ((1, 0), tt); ((2, 0), tt); ((3, 1), tt)].
Example C20_diamond :
  descendants 20 ex_inh 0 = Some [2; 3; 1] /\ parents 20 ex_inh 3 = Some [2; 0; 1] /\
  has_cycles 20 ex_inh = Some false /\ has_cycles 20 (graph_of [((0, 1), tt); ((1, 2), tt); ((2, 0), tt)]) = Some true.
Proof. repeat split. Qed.

(** * C15 *)

(** On the graph as recorded, where an edge has the weight of its last insertion, the
    answer is exact. *)
Theorem C15_exact (es : list ((nat * nat) * posneg)) (scc : list (list nat)) :
  is_scc (edge (graph_of es)) (nodes (graph_of es)) scc ->
  has_neg_cycle (graph_of es) scc = true <->
  cycle_through (fun a b => exists w, In ((a, b), w) es) (fun a b => last_weight es a b Neg).
Proof.
  intro S. rewrite (has_neg_cycle_spec _ scc S).
  assert (conv : forall x y, edge (graph_of es) x y <-> exists w, In ((x, y), w) es) by (intros x y; apply graph_of_edge).
  split; intros (a & b & N & E & R); exists a, b.
  - split; [apply graph_of_last; exact N|]. split; [apply conv; exact E|]. exact (reach_iff _ _ b a conv R).
  - split; [apply graph_of_last; exact N|]. split; [apply conv; exact E|].
    apply (reach_iff _ _ b a (fun x y => iff_sym (conv x y)) R).
Qed.
Print Assumptions C15_exact.

(** When no edge is inserted with both signs, all insertions count. *)
Theorem C15_all_insertions_partial (es : list ((nat * nat) * posneg)) (scc : list (list nat)) :
  (forall a b, ~ (In ((a, b), Pos) es /\ In ((a, b), Neg) es)) ->
  is_scc (edge (graph_of es)) (nodes (graph_of es)) scc ->
  has_neg_cycle (graph_of es) scc = true <->
  cycle_through (fun a b => exists w, In ((a, b), w) es) (fun a b => In ((a, b), Neg) es).
Proof.
  intros U S. rewrite (C15_exact es scc S).
  assert (K : forall a b, last_weight es a b Neg <-> In ((a, b), Neg) es).
  { intros a b. split; [apply last_weight_In|]. intro H. destruct (last_weight_exists es a b Neg H) as ([|] & L); [|exact L].
    exfalso. apply (U a b). split; [exact (last_weight_In es a b Pos L)|exact H]. }
  split; intros (a & b & N & R); exists a, b; (split; [apply K; exact N|exact R]).
Qed.
Print Assumptions C15_all_insertions_partial.

Definition all_insertions_statement : Prop :=
  forall (es : list ((nat * nat) * posneg)) (scc : list (list nat)),
  is_scc (edge (graph_of es)) (nodes (graph_of es)) scc ->
  has_neg_cycle (graph_of es) scc = true <->
  cycle_through (fun a b => exists w, In ((a, b), w) es) (fun a b => In ((a, b), Neg) es).

(** Inserting the same edge again with a positive sign forgets the negative one: the
    cycle through the negated reference from 0 to 1 is not reported. *)
Theorem C15_overwritten_refuted : exists (es : list ((nat * nat) * posneg)) (scc : list (list nat)),
  is_scc (edge (graph_of es)) (nodes (graph_of es)) scc /\
  has_neg_cycle (graph_of es) scc = false /\
  cycle_through (fun a b => exists w, In ((a, b), w) es) (fun a b => In ((a, b), Neg) es) /\
  ~ all_insertions_statement.
Proof.
  set (es := [((0, 1), Neg); ((1, 0), Pos); ((0, 1), Pos)]).
  assert (E01 : edge (graph_of es) 0 1) by (exists Pos; left; reflexivity).
  assert (E10 : edge (graph_of es) 1 0) by (exists Pos; right; left; reflexivity).
  assert (S : is_scc (edge (graph_of es)) (nodes (graph_of es)) [[0; 1]]).
  { split; [reflexivity|]. intros c a b [<-|[]] Ha Hb.
    assert (R : forall x y, In x [0; 1] -> In y [0; 1] -> reach (edge (graph_of es)) x y).
    { intros x y [<-|[<-|[]]] [<-|[<-|[]]]; first [apply reach_refl|apply reach_one; assumption]. }
    split; [|intros _; exact Hb]. intro Hb'. split; apply R; assumption. }
  assert (C : cycle_through (fun a b => exists w, In ((a, b), w) es) (fun a b => In ((a, b), Neg) es)).
  { exists 0, 1. split; [left; reflexivity|]. split; [exists Neg; left; reflexivity|]. apply reach_one. exists Pos. right. left. reflexivity. }
  exists es, [[0; 1]]. split; [exact S|]. split; [reflexivity|]. split; [exact C|].
  intro F. apply (F es _ S) in C. discriminate.
Qed.
Print Assumptions C15_overwritten_refuted.

Example C15_hypotheses_met :
  is_scc (edge (graph_of [((0, 1), Pos); ((1, 0), Neg); ((1, 2), Neg)])) [0; 1; 2] [[2]; [0; 1]] /\
  has_neg_cycle (graph_of [((0, 1), Pos); ((1, 0), Neg); ((1, 2), Neg)]) [[2]; [0; 1]] = true /\
  has_neg_cycle (graph_of [((0, 1), Pos); ((1, 0), Pos); ((1, 2), Neg)]) [[2]; [0; 1]] = false.
Proof.
  split; [|split; reflexivity].
  set (g := graph_of [((0, 1), Pos); ((1, 0), Neg); ((1, 2), Neg)]).
  assert (R01 : reach (edge g) 0 1) by (apply reach_one; exists Pos; left; reflexivity).
  assert (R10 : reach (edge g) 1 0) by (apply reach_one; exists Neg; right; left; reflexivity).
  assert (S2 : forall x, reach (edge g) 2 x -> x = 2).
  { intros x R. inversion R as [|? y ? (w & K) _]; subst; [reflexivity|].
    destruct K as [K|[K|[K|[]]]]; discriminate. }
  split.
  - apply (Permutation_count_occ Nat.eq_dec). intro x. do 3 (destruct x as [|x]; [reflexivity|]). reflexivity.
  - intros c a b [<-|[<-|[]]] Ha Hb.
    + destruct Ha as [<-|[]]. split.
      * intros [<-|[]]. split; apply reach_refl.
      * intros [R _]. apply S2 in R. left. symmetry. exact R.
    + split.
      * intro Hb'. destruct Ha as [<-|[<-|[]]]; destruct Hb' as [<-|[<-|[]]]; split; try apply reach_refl; assumption.
      * intros [_ R]. destruct Hb as [<-|[<-|[<-|[]]]]; [left; reflexivity|right; left; reflexivity|].
        apply S2 in R. destruct Ha as [<-|[<-|[]]]; discriminate.
Qed.
