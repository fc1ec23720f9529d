(** C16 and C34: the dependency graph of a schema and the validator's check. *)
From Coq Require Import List Arith Bool Lia Permutation.
Import ListNotations.
From Verif Require Import GraphModel GraphSpec GraphLemmas DepModel DepSpec DepLemmas.

(** * C16 *)

(** Building the graph terminates, whatever the references between the shapes. *)
Theorem C16_terminates (sch : schema) : exists g, dependency_graph (S (length sch)) sch = Some g.
Proof. exact (build_edges_total sch sch []). Qed.
Print Assumptions C16_terminates.

(** Every edge recorded is a reference with that sign, in every schema. *)
Theorem C16_sound (sch : schema) (fuel : nat) (g : graph posneg) (s t : nat) (w : posneg) :
  NoDup (map fst sch) -> dependency_graph fuel sch = Some g -> In ((s, t), w) g -> depends sch s w t.
Proof. intros N H. exact (proj1 (dependency_graph_spec sch fuel g N H) s t w). Qed.
Print Assumptions C16_sound.

(** There is an edge for every reference, when no shape extends another and no reference
    sits in a conjunction of conditions. *)
Theorem C16_every_reference_partial (sch : schema) (fuel : nat) (g : graph posneg) (s t : nat) (w : posneg) :
  NoDup (map fst sch) -> plain sch -> dependency_graph fuel sch = Some g -> depends sch s w t -> edge g s t.
Proof. intros N P H. exact (proj2 (proj2 (dependency_graph_spec sch fuel g N H)) P s w t). Qed.
Print Assumptions C16_every_reference_partial.

(** With the right sign, when moreover no shape refers to the same shape with both signs. *)
Theorem C16_signs_partial (sch : schema) (fuel : nat) (g : graph posneg) :
  NoDup (map fst sch) -> plain sch -> one_sign sch -> dependency_graph fuel sch = Some g ->
  forall s t w, In ((s, t), w) g <-> depends sch s w t.
Proof. exact (dependency_graph_exact sch fuel g). Qed.
Print Assumptions C16_signs_partial.

(** the full statement: for all schemas *)
Definition negated_references_recorded : Prop :=
  forall sch fuel g s t, NoDup (map fst sch) -> dependency_graph fuel sch = Some g ->
    depends sch s Neg t -> In ((s, t), Neg) g.
Definition references_recorded : Prop :=
  forall sch fuel g s t w, NoDup (map fst sch) -> dependency_graph fuel sch = Some g -> depends sch s w t -> edge g s t.

(** [0 = NOT @1 AND { p @1 }]: the edge of the negated reference is overwritten. *)
Definition both_signs : schema := [(0, SAnd [2; 4]); (1, SShape 0 [CondRef 0] []); (2, SNot 3); (3, SRef 1); (4, SShape 0 [CondRef 1] [])].
(** [0 = @1 AND NOT @1], where the second [@1] is structurally equal to the first, already
    visited one and is skipped. *)
Definition skipped : schema := [(0, SAnd [2; 3]); (1, SShape 0 [CondRef 0] []); (2, SRef 1); (3, SNot 4); (4, SRef 1)].

Theorem C16_overwritten_refuted : exists sch g,
  NoDup (map fst sch) /\ plain sch /\ dependency_graph (S (length sch)) sch = Some g /\ depends sch 0 Neg 1 /\
  ~ In ((0, 1), Neg) g /\ ~ negated_references_recorded.
Proof.
  exists both_signs. eexists.
  assert (N : NoDup (map fst both_signs)) by (simpl; repeat constructor; simpl; lia).
  assert (D : depends both_signs 0 Neg 1).
  { exists (SAnd [2; 4]). split; [reflexivity|]. apply (refers_and _ _ 2 (SNot 3)); [left; reflexivity|reflexivity|].
    apply (refers_not _ 3 (SRef 1) Pos); [reflexivity|constructor]. }
  split; [exact N|]. split; [|split; [reflexivity|split; [exact D|split]]].
  - intros i e H. simpl in H. repeat (destruct H as [H|H]; [injection H as <- <-; simpl; try exact I|]); try (destruct H).
    + split; [reflexivity|]. intros c [<-|[]]. exact I.
    + split; [reflexivity|]. intros c [<-|[]]. exact I.
  - simpl. intuition discriminate.
  - intro F. pose proof (F both_signs 6 _ 0 1 N eq_refl D) as K. simpl in K. intuition discriminate.
Qed.
Print Assumptions C16_overwritten_refuted.

Theorem C16_skipped_refuted : exists sch g,
  NoDup (map fst sch) /\ plain sch /\ dependency_graph (S (length sch)) sch = Some g /\ depends sch 0 Neg 1 /\
  ~ In ((0, 1), Neg) g /\ ~ negated_references_recorded.
Proof.
  exists skipped. eexists.
  assert (N : NoDup (map fst skipped)) by (simpl; repeat constructor; simpl; lia).
  assert (D : depends skipped 0 Neg 1).
  { exists (SAnd [2; 3]). split; [reflexivity|]. apply (refers_and _ _ 3 (SNot 4)); [right; left; reflexivity|reflexivity|].
    apply (refers_not _ 4 (SRef 1) Pos); [reflexivity|constructor]. }
  split; [exact N|]. split; [|split; [reflexivity|split; [exact D|split]]].
  - intros i e H. simpl in H. repeat (destruct H as [H|H]; [injection H as <- <-; simpl; try exact I|]); [|destruct H].
    split; [reflexivity|]. intros c [<-|[]]. exact I.
  - simpl. intuition discriminate.
  - intro F. pose proof (F skipped 6 _ 0 1 N eq_refl D) as K. simpl in K. intuition discriminate.
Qed.
Print Assumptions C16_skipped_refuted.

(** References next to a semantic action, and EXTENDS, give no edge at all. *)
Theorem C16_unrecorded_refuted :
  (exists sch g, NoDup (map fst sch) /\ dependency_graph (S (length sch)) sch = Some g /\ depends sch 0 Pos 1 /\ ~ edge g 0 1 /\
     sch = [(0, SShape 0 [CondAnd [CondSingle 0; CondRef 1]] []); (1, SNot 2); (2, SRef 0)]) /\
  (exists sch g, NoDup (map fst sch) /\ dependency_graph (S (length sch)) sch = Some g /\ depends sch 0 Pos 1 /\ ~ edge g 0 1 /\
     sch = [(0, SShape 0 [] [1]); (1, SNot 2); (2, SRef 0)]) /\
  ~ references_recorded.
Proof.
  assert (A : exists sch g, NoDup (map fst sch) /\ dependency_graph (S (length sch)) sch = Some g /\ depends sch 0 Pos 1 /\ ~ edge g 0 1 /\
     sch = [(0, SShape 0 [CondAnd [CondSingle 0; CondRef 1]] []); (1, SNot 2); (2, SRef 0)]).
  { eexists. eexists. split; [|split; [|split; [|split; [|reflexivity]]]].
    - simpl. repeat constructor; simpl; lia.
    - reflexivity.
    - eexists. split; [reflexivity|]. apply (refers_value _ _ _ _ (CondAnd [CondSingle 0; CondRef 1])); [left; reflexivity|].
      apply (cond_refers_and _ (CondRef 1)); [right; left; reflexivity|constructor].
    - intros (w & H). simpl in H. destruct H as [H|[H|[]]]; discriminate. }
  split; [exact A|]. split.
  - eexists. eexists. split; [|split; [|split; [|split; [|reflexivity]]]].
    + simpl. repeat constructor; simpl; lia.
    + reflexivity.
    + eexists. split; [reflexivity|]. apply refers_extends. left. reflexivity.
    + intros (w & H). simpl in H. destruct H as [H|[H|[]]]; discriminate.
  - intro F. destruct A as (sch & g & N & H & D & E & _). exact (E (F sch _ g 0 1 Pos N H D)).
Qed.
Print Assumptions C16_unrecorded_refuted.

(** a plain schema with one sign for each pair: [0 = { p @1 }], [1 = NOT @0 OR @2], [2 = {}] *)
Definition ex_schema : schema :=
  [(0, SShape 0 [CondSingle 3; CondRef 1] []); (1, SOr [3; 4]); (2, SShape 1 [] []); (3, SNot 5); (4, SRef 2); (5, SRef 0)].
Example C16_hypotheses_met :
  NoDup (map fst ex_schema) /\ plain ex_schema /\
  dependency_graph 7 ex_schema =
    Some [((0, 1), Pos); ((1, 0), Neg); ((1, 2), Pos); ((3, 0), Neg); ((4, 2), Pos); ((5, 0), Pos)] /\
  depends ex_schema 1 Neg 0.
Proof.
  split; [simpl; repeat constructor; simpl; lia|]. split; [|split; [reflexivity|]].
  - intros i e H. simpl in H. repeat (destruct H as [H|H]; [injection H as <- <-; simpl; try exact I|]); try (destruct H).
    + split; [reflexivity|]. intros c [<-|[<-|[]]]; exact I.
    + split; [reflexivity|]. intros c [].
  - exists (SOr [3; 4]). split; [reflexivity|]. apply (refers_or _ _ 3 (SNot 5)); [left; reflexivity|reflexivity|].
    apply (refers_not _ 5 (SRef 0) Pos); [reflexivity|constructor].
Qed.
Lemma ex_schema_one_sign : one_sign ex_schema.
Proof.
  intros s t w w' D D'.
  destruct C16_hypotheses_met as (N & _ & H & _).
  assert (X : forall s w t, depends ex_schema s w t ->
    In ((s, t), w) [((0, 1), Pos); ((1, 0), Neg); ((1, 2), Pos); ((3, 0), Neg); ((4, 2), Pos); ((5, 0), Pos)]).
  { clear. intros s w t (e & F & R).
    assert (E5 : forall q u, refers ex_schema (SRef 0) q u -> q = Pos /\ u = 0) by (intros q u K; inversion K; auto).
    assert (E4 : forall q u, refers ex_schema (SRef 2) q u -> q = Pos /\ u = 2) by (intros q u K; inversion K; auto).
    assert (E3 : forall q u, refers ex_schema (SNot 5) q u -> q = Neg /\ u = 0).
    { intros q u K. inversion K as [| | | | |i c q' u' Fc Rc]; subst. injection Fc as <-.
      destruct (E5 _ _ Rc) as [-> ->]. auto. }
    destruct s as [|[|[|[|[|[|s]]]]]]; [injection F as <-..|discriminate].
    - inversion R as [|n cs ex c u Hc Rc|n cs ex u Hx| | |]; subst.
      + destruct Hc as [<-|[<-|[]]]; inversion Rc; subst. simpl. tauto.
      + destruct Hx.
    - inversion R as [| | |l i c q u Hi Fc Rc| |]; subst. destruct Hi as [<-|[<-|[]]]; injection Fc as <-.
      + destruct (E3 _ _ Rc) as [-> ->]. simpl. tauto.
      + destruct (E4 _ _ Rc) as [-> ->]. simpl. tauto.
    - inversion R as [|n cs ex c u Hc Rc|n cs ex u Hx| | |]; subst; [destruct Hc|destruct Hx].
    - destruct (E3 _ _ R) as [-> ->]. simpl. tauto.
    - destruct (E4 _ _ R) as [-> ->]. simpl. tauto.
    - destruct (E5 _ _ R) as [-> ->]. simpl. tauto. }
  apply X in D. apply X in D'. simpl in D, D'.
  repeat match goal with H : _ \/ _ |- _ => destruct H as [H|H] | H : False |- _ => destruct H end; congruence.
Qed.

(** * C34 *)

(** A validator is refused only when the check is asked for, the configuration requires
    it and the schema has a cycle of references through a negation. *)
Theorem C34_refused_only_for_negative_cycles (sch : schema) (fuel : nat) (g : graph posneg) (scc : list (list nat))
    (check requirement : bool) :
  NoDup (map fst sch) -> dependency_graph fuel sch = Some g -> is_scc (edge g) (nodes g) scc ->
  with_neg_cycle_check check requirement g scc = false -> check = true /\ requirement = true /\ negative_cycle sch.
Proof.
  intros N H S R. unfold with_neg_cycle_check in R. apply negb_false_iff in R.
  apply andb_true_iff in R. destruct R as [R T]. apply andb_true_iff in R. destruct R as [-> ->].
  split; [reflexivity|]. split; [reflexivity|]. exact (rejected_has_cycle sch fuel g scc N H S T).
Qed.
Print Assumptions C34_refused_only_for_negative_cycles.

(** [Validator::new] with the requirement on succeeds exactly on the schemas without a
    negative cycle, for the schemas whose dependency graph is exact (C16). *)
Theorem C34_exact_partial (sch : schema) (fuel : nat) (g : graph posneg) (scc : list (list nat)) :
  NoDup (map fst sch) -> plain sch -> one_sign sch -> dependency_graph fuel sch = Some g ->
  is_scc (edge g) (nodes g) scc -> validator_new true g scc = true <-> ~ negative_cycle sch.
Proof.
  intros N P O H S. pose proof (exact_rejection sch fuel g scc N P O H S) as X.
  unfold validator_new, with_neg_cycle_check. cbn [andb]. destruct (has_neg_cycle g scc).
  - split; [discriminate|]. intro K. exfalso. apply K. apply X. reflexivity.
  - split; [|reflexivity]. intros _ K. apply X in K. discriminate.
Qed.
Print Assumptions C34_exact_partial.

Definition only_stratified_statement : Prop :=
  forall sch fuel g scc, NoDup (map fst sch) -> dependency_graph fuel sch = Some g -> is_scc (edge g) (nodes g) scc ->
    validator_new true g scc = true -> ~ negative_cycle sch.

(** [0 = @1 AND NOT @1], [1 = { p @0 }] has a negative cycle and is accepted. *)
Theorem C34_accepts_negative_cycle_refuted : exists sch g scc,
  NoDup (map fst sch) /\ dependency_graph (S (length sch)) sch = Some g /\ is_scc (edge g) (nodes g) scc /\
  validator_new true g scc = true /\ negative_cycle sch /\ ~ only_stratified_statement.
Proof.
  set (g := [((0, 1), Pos); ((1, 0), Pos); ((2, 1), Pos); ((3, 1), Neg); ((4, 1), Pos)]).
  assert (N : NoDup (map fst skipped)) by (simpl; repeat constructor; simpl; lia).
  assert (H : dependency_graph 6 skipped = Some g) by reflexivity.
  assert (D : depends skipped 0 Neg 1).
  { exists (SAnd [2; 3]). split; [reflexivity|]. apply (refers_and _ _ 3 (SNot 4)); [right; left; reflexivity|reflexivity|].
    apply (refers_not _ 4 (SRef 1) Pos); [reflexivity|constructor]. }
  assert (C : negative_cycle skipped).
  { exists 0, 1. split; [exact D|]. split; [exists Neg; exact D|]. apply reach_one. exists Pos. eexists. split; [reflexivity|].
    apply (refers_value _ _ _ _ (CondRef 0)); [left; reflexivity|constructor]. }
  assert (S : is_scc (edge g) (nodes g) [[0; 1]; [2]; [3]; [4]]).
  { assert (R01 : reach (edge g) 0 1) by (apply reach_one; exists Pos; left; reflexivity).
    assert (R10 : reach (edge g) 1 0) by (apply reach_one; exists Pos; right; left; reflexivity).
    assert (B : forall x y, reach (edge g) x y -> x = y \/ y = 0 \/ y = 1).
    { intros x y R. induction R as [x|x z y (w & Hxz) R IH]; [left; reflexivity|].
      destruct IH as [->|IH]; [|right; exact IH]. right. simpl in Hxz.
      repeat (destruct Hxz as [Hxz|Hxz]; [injection Hxz as <- <- _; auto|]). destruct Hxz. }
    split; [reflexivity|]. intros c a b Hc Ha Hb.
    destruct Hc as [<-|[<-|[<-|[<-|[]]]]].
    - split.
      + intro Hb'. destruct Ha as [<-|[<-|[]]]; destruct Hb' as [<-|[<-|[]]]; split; try apply reach_refl; assumption.
      + intros [R _]. destruct (B a b R) as [->|[->| ->]]; [exact Ha|left; reflexivity|right; left; reflexivity].
    - destruct Ha as [<-|[]]. split; [intros [<-|[]]; split; apply reach_refl|].
      intros [_ R]. destruct (B b 2 R) as [->|[K|K]]; [left; reflexivity|discriminate|discriminate].
    - destruct Ha as [<-|[]]. split; [intros [<-|[]]; split; apply reach_refl|].
      intros [_ R]. destruct (B b 3 R) as [->|[K|K]]; [left; reflexivity|discriminate|discriminate].
    - destruct Ha as [<-|[]]. split; [intros [<-|[]]; split; apply reach_refl|].
      intros [_ R]. destruct (B b 4 R) as [->|[K|K]]; [left; reflexivity|discriminate|discriminate]. }
  exists skipped, g, [[0; 1]; [2]; [3]; [4]]. split; [exact N|]. split; [exact H|]. split; [exact S|].
  split; [reflexivity|]. split; [exact C|]. intro F. exact (F skipped 6 g _ N H S eq_refl C).
Qed.
Print Assumptions C34_accepts_negative_cycle_refuted.
