(** C30, C51: the order in which SHACL shapes are validated, and the recursion that is reported. *)
From Coq Require Import List Arith Bool Lia Permutation.
Import ListNotations.
From Verif Require Import GraphModel GraphSpec GraphLemmas LevelModel LevelSpec LevelLemmas.

(** C30: a schema is accepted exactly when no shape refers to itself, directly or through others *)
Theorem C30_accepts_iff_not_recursive_partial sch scc fuel : wf sch -> enough sch <= fuel ->
  exists r, compile fuel sch scc = Some r /\ ((exists g, r = Compiled g) <-> ~ recursive (refers sch)).
Proof.
  intros W F. destruct (compile_ok sch scc fuel W F) as (g & _ & _ & _ & [[R ->]|(R & -> & _)]); eexists; (split; [reflexivity|]); split.
  - intros [g' E]. destruct (has_neg_cycle g (scc g)); discriminate.
  - intro C. contradiction.
  - intros _. exact R.
  - intros _. exists g. reflexivity.
Qed.
Print Assumptions C30_accepts_iff_not_recursive_partial.

(** C30: the graph of an accepted schema has levels, and they are a schedule: every shape with targets
    is in one level, once, and in a later level than every shape with targets it refers to *)
Theorem C30_schedule_partial sch scc fuel g : wf sch -> enough sch <= fuel -> compile fuel sch scc = Some (Compiled g) ->
  exists ls, topological_levels fuel g = Some ls /\ good_schedule sch (refers sch) (by_level sch ls) /\ ~ In [] (by_level sch ls).
Proof.
  intros W F C. destruct (compile_ok sch scc fuel W F) as (g' & _ & _ & EG & [[_ E]|(_ & E & ls & T & LF & NE)]); rewrite E in C.
  - destruct (has_neg_cycle g' (scc g')); discriminate.
  - injection C as <-. exists ls. split; [exact T|]. split; [apply (by_level_ok sch g' ls W EG LF)|].
    unfold by_level. intro H. rewrite <- nonempty_app in H. apply nonempty_In in H. congruence.
Qed.
Print Assumptions C30_schedule_partial.

(** C30: the levels cover the whole graph, each shape once and after all it refers to; no shape is left
    out as being on a cycle *)
Theorem C30_levels sch scc fuel g : wf sch -> enough sch <= fuel -> compile fuel sch scc = Some (Compiled g) ->
  exists ls, topological_levels fuel g = Some ls /\ NoDup (concat ls) /\
    (forall x, In x (concat ls) <-> exists y, refers sch x y \/ refers sch y x) /\
    forall a b n m, depends (refers sch) a b -> at_level ls n a -> at_level ls m b -> m < n.
Proof.
  intros W F C. destruct (compile_ok sch scc fuel W F) as (g' & _ & _ & EG & [[_ E]|(_ & E & ls & T & LF & NE)]); rewrite E in C.
  - destruct (has_neg_cycle g' (scc g')); discriminate.
  - injection C as <-. exists ls. split; [exact T|]. pose proof LF as (N & I & _). split; [exact N|]. split.
    + intro x. rewrite I, nodes_In. split.
      * intros [(y & [H|H]) _]; exists y; [left|right]; apply EG, H.
      * intros (y & [H|H]); (split; [|intros []]); exists y; [left|right]; apply EG, H.
    + intros a b n m (c & H & R) Ha Hb. destruct (levels_depends g' ls LF a b) with (n := n) as (k & Lk & Hk).
      * exists c. split; [apply EG, H|]. apply (reach_iff (refers sch)); [intros; symmetry; apply EG|exact R].
      * exact Ha.
      * rewrite (at_level_uniq ls N m k b Hb Hk). exact Lk.
Qed.
Print Assumptions C30_levels.

(** C30: it is a schedule also for the shapes that are used as siblings or reifiers, as long as these
    are referred to in another way too *)
Theorem C30_schedule_uses_partial sch scc fuel g : wf sch -> enough sch <= fuel -> (forall a b, uses sch a b -> depends (refers sch) a b) ->
  compile fuel sch scc = Some (Compiled g) -> exists ls, topological_levels fuel g = Some ls /\ good_schedule sch (uses sch) (by_level sch ls).
Proof.
  intros W F U C. destruct (C30_schedule_partial sch scc fuel g W F C) as (ls & T & (N & I & L) & _). exists ls. split; [exact T|]. split; [exact N|]. split; [exact I|].
  intros a b n m (c & H & R). apply L. destruct (U a c H) as (d & D1 & D2). exists d. split; [exact D1|]. apply (reach_trans _ _ c _ D2). clear -R U.
  induction R as [c|c x b H R IH]; [apply reach_refl|]. destruct (U c x H) as (d & D1 & D2). apply (reach_step _ c d b D1). apply (reach_trans _ _ x _ D2 IH).
Qed.
Print Assumptions C30_schedule_uses_partial.

(** a schema with three levels and a shape outside the graph *)
Definition sch_ok : schema :=
  [(0, mkShape [CNode 2; CValue] [1] [] true); (1, mkShape [CNot 2] [] [] false); (2, mkShape [CValue] [3] [] true); (3, mkShape [CValue] [] [] false); (4, mkShape [CValue] [] [] true)].
Definition comp_all (c : comp) : list nat := match c with COr l | CAnd l | CXone l => l | CNot i | CNode i => [i] | CQualified i s => i :: s | CValue => [] end.
Lemma uses_in sch a b : uses sch a b ->
  In (a, b) (flat_map (fun e : nat * shape => map (pair (fst e)) (flat_map comp_all (comps (snd e)) ++ props (snd e) ++ reifiers (snd e))) sch).
Proof.
  intros (s & Hs & D). apply in_flat_map. exists (a, s). split; [exact Hs|]. cbn [fst snd]. apply in_map, in_or_app. destruct D as [(c & Hc & D)|D]; [left|right; apply in_or_app; exact D].
  apply in_flat_map. exists c. split; [exact Hc|]. destruct c; destruct D as [D|D]; cbn in *; try contradiction; subst; auto.
Qed.
Ltac by_uses H := apply uses_in in H; cbn in H; repeat (destruct H as [H|H]; [injection H as <- <-; cbn; first [lia | tauto]|]); destruct H.
Ltac solve_wf :=
  split;
  [cbn; repeat (constructor; [cbn; intuition discriminate|]); constructor
  |intros a b Hs; by_uses Hs].
Example C30_met : wf sch_ok /\ exists g, compile (enough sch_ok) sch_ok (fun _ => []) = Some (Compiled g) /\
  topological_levels (enough sch_ok) g = Some [[3]; [2]; [1]; [0]] /\ by_level sch_ok [[3]; [2]; [1]; [0]] = [[4]; [2]; [0]].
Proof. split; [solve_wf|]. eexists. split; [reflexivity|]. split; reflexivity. Qed.
Example C30_met_uses : forall a b, uses sch_ok a b -> depends (refers sch_ok) a b.
Proof.
  intros a b (s & Hs & D). exists b. split; [|apply reach_refl]. exists s. split; [exact Hs|].
  destruct D as [(c & Hc & [D|D])|[D|D]]; [left; exists c; auto| |right; exact D|].
  - exfalso. cbn in Hs. repeat (destruct Hs as [Hs|Hs]; [injection Hs as <- <-; cbn in Hc; repeat (destruct Hc as [<-|Hc]; [exact D|]); destruct Hc|]). destruct Hs.
  - exfalso. cbn in Hs. repeat (destruct Hs as [Hs|Hs]; [injection Hs as <- <-; exact D|]). destruct Hs.
Qed.
Example C30_met_recursive : recursive (refers [(0, mkShape [CNode 0] [] [] true)]).
Proof. exists 0, 0. split; [|apply reach_refl]. exists (mkShape [CNode 0] [] [] true). split; [left; reflexivity|]. left. exists (CNode 0). split; [left; reflexivity|reflexivity]. Qed.

(** C30, the whole of it, is false: the siblings of a qualified value shape are evaluated with it but
    are not in the graph, so a shape can be scheduled with, or before, one that it uses *)
Definition sch_sib : schema :=
  [(0, mkShape [CQualified 1 [2]] [] [] true); (1, mkShape [CValue] [] [] false); (2, mkShape [CNode 3] [] [] true); (3, mkShape [CNode 4] [] [] false); (4, mkShape [CValue] [] [] false)].
Theorem C30_siblings_refuted : exists sch g ls, wf sch /\ ~ recursive (uses sch) /\
  compile (enough sch) sch (fun _ => []) = Some (Compiled g) /\ topological_levels (enough sch) g = Some ls /\
  by_level sch ls = [[0]; [2]] /\ uses sch 0 2 /\ ~ good_schedule sch (uses sch) (by_level sch ls).
Proof.
  exists sch_sib. eexists. eexists. split; [solve_wf|]. split.
  { assert (H : forall a b, uses sch_sib a b -> a < b).
    { intros a b Hs. by_uses Hs. }
    intros (a & b & E & R). apply H in E. assert (b <= a); [|lia]. clear E. induction R as [c|c x d E R IH]; [lia|]. apply H in E. lia. }
  split; [reflexivity|]. split; [reflexivity|]. split; [reflexivity|].
  assert (U : uses sch_sib 0 2) by (exists (mkShape [CQualified 1 [2]] [] [] true); split; [left; reflexivity|]; left; exists (CQualified 1 [2]); split; [left; reflexivity|]; right; left; reflexivity).
  split; [exact U|]. intros (_ & _ & L). assert (1 < 0); [|lia]. apply (L 0 2 0 1).
  - exists 2. split; [exact U|apply reach_refl].
  - exists [0]. split; [reflexivity|left; reflexivity].
  - exists [2]. split; [reflexivity|left; reflexivity].
Qed.
Print Assumptions C30_siblings_refuted.

(** C30: nor are reifier shapes *)
Theorem C30_reifiers_refuted : exists sch g ls, wf sch /\ compile (enough sch) sch (fun _ => []) = Some (Compiled g) /\
  topological_levels (enough sch) g = Some ls /\ uses sch 0 1 /\ ~ good_schedule sch (uses sch) (by_level sch ls).
Proof.
  exists [(0, mkShape [] [] [1] true); (1, mkShape [CValue] [] [] true)]. eexists. eexists. split; [solve_wf|]. split; [reflexivity|]. split; [reflexivity|].
  assert (U : uses [(0, mkShape [] [] [1] true); (1, mkShape [CValue] [] [] true)] 0 1) by (exists (mkShape [] [] [1] true); split; [left; reflexivity|]; right; right; left; reflexivity).
  split; [exact U|]. intros (_ & _ & L). assert (0 < 0); [|lia]. apply (L 0 1 0 0).
  - exists 1. split; [exact U|apply reach_refl].
  - exists [0; 1]. split; [reflexivity|left; reflexivity].
  - exists [0; 1]. split; [reflexivity|right; left; reflexivity].
Qed.
Print Assumptions C30_reifiers_refuted.

(** C30: and a schema that is recursive through siblings is accepted *)
Theorem C30_recursion_refuted : exists sch g, wf sch /\ recursive (uses sch) /\ compile (enough sch) sch (fun _ => []) = Some (Compiled g).
Proof.
  exists [(0, mkShape [] [1; 2] [] true); (1, mkShape [CQualified 3 [4]] [] [] false); (2, mkShape [CQualified 4 [3]] [] [] false);
          (3, mkShape [CValue] [] [] false); (4, mkShape [] [1] [] false)].
  eexists. split; [solve_wf|]. split; [|reflexivity]. exists 1, 4. split.
  - exists (mkShape [CQualified 3 [4]] [] [] false). split; [right; left; reflexivity|]. left. exists (CQualified 3 [4]). split; [left; reflexivity|]. right. left. reflexivity.
  - apply reach_step with 1; [|apply reach_refl]. exists (mkShape [] [1] [] false). split; [do 4 right; left; reflexivity|]. right. left. left. reflexivity.
Qed.
Print Assumptions C30_recursion_refuted.

(** C51: negation on a cycle is always rejected, with one of the two errors *)
Theorem C51_negative_recursion_rejected sch scc fuel : wf sch -> enough sch <= fuel -> negative_recursion sch ->
  compile fuel sch scc = Some NegativeCycles \/ compile fuel sch scc = Some Cycles.
Proof.
  intros W F (a & b & (s & Hs & Hc) & R). destruct (compile_ok sch scc fuel W F) as (g & _ & _ & _ & [[_ ->]|(N & _)]).
  - destruct (has_neg_cycle g (scc g)); auto.
  - exfalso. apply N. exists a, b. split; [|exact R]. exists s. split; [exact Hs|]. left. exists (CNot b). split; [exact Hc|reflexivity].
Qed.
Print Assumptions C51_negative_recursion_rejected.

(** C51: the error about negation is only for schemas with a negation *)
Theorem C51_needs_negation_partial sch scc fuel : wf sch -> enough sch <= fuel ->
  (forall g, build_graph fuel sch = Some g -> is_scc (edge g) (nodes g) (scc g)) ->
  compile fuel sch scc = Some NegativeCycles -> recursive (refers sch) /\ exists a b, negates sch a b.
Proof.
  intros W F SC C. destruct (compile_ok sch scc fuel W F) as (g & B & _ & EG & [[R E]|(_ & E & _)]); rewrite E in C; [|discriminate].
  split; [exact R|]. destruct (has_neg_cycle g (scc g)) eqn:H; [|discriminate]. apply (has_neg_cycle_spec g (scc g) (SC g B)) in H.
  assert (D : (exists a b, negates sch a b) \/ forall a b, ~ negates sch a b).
  { assert (G : forall l : schema, (exists a b, exists s, In (a, s) l /\ In (CNot b) (comps s)) \/ forall a b, ~ exists s, In (a, s) l /\ In (CNot b) (comps s)).
    { induction l as [|[i s] l [IH|IH]].
      - right. intros a b (s & [] & _).
      - left. destruct IH as (a & b & t & Ht & Hb). exists a, b, t. split; [right; exact Ht|exact Hb].
      - assert (K : (exists b, In (CNot b) (comps s)) \/ forall b, ~ In (CNot b) (comps s)).
        { induction (comps s) as [|c cs [[b Hb]|IHc]]; [right; intros b []|left; exists b; right; exact Hb|].
          destruct c; try (right; intros b [X|X]; [discriminate|apply (IHc b X)]). left. exists i0. left. reflexivity. }
        destruct K as [[b Hb]|K]; [left; exists i, b, s; split; [left; reflexivity|exact Hb]|].
        right. intros a b (t & [X|X] & Hb); [injection X as <- <-; apply (K b Hb)|]. apply (IH a b). exists t. auto. }
    apply (G sch). }
  destruct D as [D|D]; [exact D|]. destruct H as (a & b & H & _). pose proof (build_all_pos sch fuel g D B _ _ H). discriminate.
Qed.
Print Assumptions C51_needs_negation_partial.

Lemma cycles_concat scc x : In x (concat (cycles scc)) <-> exists c, In c scc /\ 1 < length c /\ In x c.
Proof.
  unfold cycles. rewrite in_concat. split.
  - intros (c & Hc & Hx). apply filter_In in Hc as [Hc L]. apply Nat.ltb_lt in L. exists c. auto.
  - intros (c & Hc & L & Hx). exists c. split; [apply filter_In; split; [exact Hc|apply Nat.ltb_lt, L]|exact Hx].
Qed.

(** C51: the cycles listed with the error: a shape is in one exactly when it and another shape refer
    to each other *)
Theorem C51_cycles_listed_partial sch scc fuel g a : wf sch -> enough sch <= fuel -> build_graph fuel sch = Some g ->
  is_scc (edge g) (nodes g) (scc g) ->
  In a (concat (cycles (scc g))) <-> exists b, b <> a /\ reach (refers sch) a b /\ reach (refers sch) b a.
Proof.
  intros W F B [P SC]. destruct (compile_ok sch (fun _ => []) fuel W F) as (g' & B' & _ & EG & _). rewrite B in B'. injection B' as <-.
  assert (RE : forall x y, reach (edge g) x y <-> reach (refers sch) x y) by (intros x y; split; apply reach_iff; intros; [apply EG|symmetry; apply EG]).
  assert (ND : NoDup (concat (scc g))) by (apply (Permutation_NoDup (Permutation_sym P)), nodes_NoDup).
  rewrite cycles_concat. split.
  - intros (c & Hc & L & Ha).
    assert (NC : NoDup c).
    { clear -ND Hc. induction (scc g) as [|d l IH]; [destruct Hc|]. cbn [concat] in ND. apply NoDup_app_elim in ND as (N1 & N2 & _). destruct Hc as [<-|Hc]; [exact N1|apply IH; assumption]. }
    assert (X : exists b, In b c /\ b <> a).
    { destruct c as [|x [|y c]]; [cbn in L; lia|cbn in L; lia|]. destruct (Nat.eq_dec x a) as [->|N]; [exists y|exists x; split; [left; reflexivity|exact N]].
      split; [right; left; reflexivity|]. intros ->. inversion NC as [|? ? N1 _]; subst. apply N1. left. reflexivity. }
    destruct X as (b & Hb & N). exists b. split; [exact N|].
    assert (Nb : In b (nodes g)) by (apply (Permutation_in _ P), in_concat; exists c; auto).
    destruct (proj1 (SC c a b Hc Ha Nb) Hb) as [R1 R2]. split; apply RE; assumption.
  - intros (b & N & R1 & R2). apply RE in R1, R2.
    assert (NA : In a (nodes g)) by (inversion R1; subst; [congruence|]; apply nodes_In; exists b0; left; assumption).
    assert (NB : In b (nodes g)) by (inversion R2; subst; [congruence|]; apply nodes_In; exists b0; left; assumption).
    apply (Permutation_in _ (Permutation_sym P)) in NA. apply in_concat in NA as (c & Hc & Ha). exists c. split; [exact Hc|]. split; [|exact Ha].
    assert (Hb : In b c) by (apply (SC c a b Hc Ha NB); auto). destruct c as [|x [|y c]]; [destruct Ha|destruct Ha as [<-|[]]; destruct Hb as [<-|[]]; congruence|cbn; lia].
Qed.
Print Assumptions C51_cycles_listed_partial.

Definition sch_neg : schema := [(0, mkShape [CNot 1] [] [] true); (1, mkShape [CNode 0] [] [] false)].
(** a graph all of whose nodes are on one cycle has one component *)
Lemma one_component {A} (g : graph A) : (forall a b, In a (nodes g) -> In b (nodes g) -> reach (edge g) a b) -> is_scc (edge g) (nodes g) [nodes g].
Proof. intro H. split; [cbn; rewrite app_nil_r; reflexivity|]. intros c a b [<-|[]] Ha Hb. split; [intros _; split; apply H; assumption|intros _; exact Hb]. Qed.

Definition nodes_of (g : graph posneg) : list (list nat) := [nodes g].
Lemma sch_neg_recursion : negative_recursion sch_neg.
Proof.
  exists 0, 1. split; [exists (mkShape [CNot 1] [] [] true); split; left; reflexivity|].
  apply reach_step with 0; [|apply reach_refl]. exists (mkShape [CNode 0] [] [] false). split; [right; left; reflexivity|]. left. exists (CNode 0). split; [left; reflexivity|reflexivity].
Qed.
Lemma sch_neg_graph : build_graph (enough sch_neg) sch_neg = Some [((0, 1), Pos); ((1, 0), Pos)].
Proof. reflexivity. Qed.
Lemma sch_neg_scc : is_scc (edge [((0, 1), Pos); ((1, 0), Pos)]) [0; 1] [[0; 1]].
Proof.
  apply (one_component [((0, 1), Pos); ((1, 0), Pos)]).
  assert (E1 : edge [((0, 1), Pos); ((1, 0), Pos)] 0 1) by (exists Pos; left; reflexivity).
  assert (E2 : edge [((0, 1), Pos); ((1, 0), Pos)] 1 0) by (exists Pos; right; left; reflexivity).
  intros x y [<-|[<-|[]]] [<-|[<-|[]]]; try apply reach_refl; apply reach_one; assumption.
Qed.
Example C51_met : wf sch_neg /\ negative_recursion sch_neg /\ compile (enough sch_neg) sch_neg nodes_of = Some Cycles /\
  build_graph (enough sch_neg) sch_neg = Some [((0, 1), Pos); ((1, 0), Pos)] /\ is_scc (edge [((0, 1), Pos); ((1, 0), Pos)]) [0; 1] [[0; 1]].
Proof. split; [solve_wf|]. split; [exact sch_neg_recursion|]. split; [reflexivity|]. split; [reflexivity|exact sch_neg_scc]. Qed.

(** C51, the whole of it, is false: negation on a cycle can be reported as recursion without negation,
    because the edge that closes the cycle is walked twice and its sign overwritten *)
Theorem C51_negation_missed_refuted : exists sch scc, wf sch /\ negative_recursion sch /\
  (forall g, build_graph (enough sch) sch = Some g -> is_scc (edge g) (nodes g) (scc g)) /\ compile (enough sch) sch scc = Some Cycles.
Proof.
  exists sch_neg, nodes_of. split; [solve_wf|]. split; [exact sch_neg_recursion|]. split; [|reflexivity].
  intros g H. rewrite sch_neg_graph in H. injection H as <-. exact sch_neg_scc.
Qed.
Print Assumptions C51_negation_missed_refuted.

(** C51: and a cycle without negation is reported as one with negation when it is first reached from a
    shape that negates one of its members *)
Definition sch_pos : schema := [(0, mkShape [CQualified 2 []] [] [] true); (1, mkShape [CNot 0] [] [] false); (2, mkShape [CNode 0] [] [] false)].
Definition g_pos : graph posneg := [((0, 2), Neg); ((1, 0), Neg); ((2, 0), Pos)].
Theorem C51_negation_invented_refuted : exists sch scc, wf sch /\ recursive (refers sch) /\ ~ negative_recursion sch /\
  (forall g, build_graph (enough sch) sch = Some g -> is_scc (edge g) (nodes g) (scc g)) /\ compile (enough sch) sch scc = Some NegativeCycles.
Proof.
  exists sch_pos, (fun _ => [[0; 2]; [1]]). split; [solve_wf|].
  assert (B : build_graph (enough sch_pos) sch_pos = Some g_pos) by reflexivity.
  assert (W : wf sch_pos) by solve_wf.
  destruct (compile_ok sch_pos (fun _ => []) (enough sch_pos) W (le_n _)) as (g & B' & _ & EG & _). rewrite B in B'. injection B' as <-.
  assert (ED : forall a b, edge g_pos a b -> (a, b) = (0, 2) \/ (a, b) = (1, 0) \/ (a, b) = (2, 0)).
  { intros a b (w & H). cbn in H. repeat (destruct H as [H|H]; [injection H as <- <- _; auto|]). destruct H. }
  assert (E02 : edge g_pos 0 2) by (eexists; cbn; eauto 6).
  assert (E10 : edge g_pos 1 0) by (eexists; cbn; eauto 6).
  assert (E20 : edge g_pos 2 0) by (eexists; cbn; eauto 6).
  assert (N1 : forall a, reach (edge g_pos) a 1 -> a = 1).
  { assert (G : forall a b, reach (edge g_pos) a b -> b = 1 -> a = 1); [|intros a R; apply (G a 1 R eq_refl)].
    intros a b R. induction R as [a|a x b H R IH]; [auto|]. intro T. specialize (IH T). apply ED in H as [H|[H|H]]; injection H as H1 H2; lia. }
  split; [exists 0, 2; split; [apply EG, E02|apply reach_one, EG, E20]|]. split.
  { intros (a & b & (s & Hs & Hc) & R). apply (reach_iff _ (edge g_pos)) in R; [|intros; symmetry; apply EG].
    cbn in Hs. repeat (destruct Hs as [Hs|Hs]; [injection Hs as <- <-; cbn in Hc; repeat (destruct Hc as [Hc|Hc]; [try discriminate; injection Hc as <-|]); try contradiction|]); try contradiction.
    apply N1 in R. discriminate. }
  split; [|reflexivity]. intros g H. rewrite B in H. injection H as <-. split; [reflexivity|].
  intros c a b Hc Ha Hb. assert (NB : In b [0; 1; 2]) by (cbn in Hb; cbn; tauto).
  assert (R02 := reach_one (edge g_pos) 0 2 E02). assert (R20 := reach_one (edge g_pos) 2 0 E20).
  destruct Hc as [<-|[<-|[]]]; cbn in Ha, NB; cbn [In].
  - destruct Ha as [<-|[<-|[]]]; destruct NB as [<-|[<-|[<-|[]]]]; split; intros H;
      try (repeat split; (apply reach_refl || assumption)); try tauto; try (destruct H as [H|[H|[]]]; discriminate);
      destruct H as [H _]; apply N1 in H; discriminate.
  - destruct Ha as [<-|[]]; destruct NB as [<-|[<-|[<-|[]]]]; split; intros H;
      try (split; apply reach_refl); try tauto; try (destruct H as [H|[]]; discriminate);
      destruct H as [_ H]; apply N1 in H; discriminate.
Qed.
Print Assumptions C51_negation_invented_refuted.

(** C51: a shape that refers to itself is rejected as recursive with no cycle listed *)
Theorem C51_self_reference_refuted : exists sch scc, wf sch /\ (forall g, build_graph (enough sch) sch = Some g -> is_scc (edge g) (nodes g) (scc g)) /\
  on_cycle (refers sch) 0 /\ compile (enough sch) sch scc = Some Cycles /\ forall g, cycles (scc g) = [].
Proof.
  exists [(0, mkShape [CNode 0] [] [] true)], (fun _ => [[0]]). split; [solve_wf|]. split.
  - intros g H. injection H as <-. apply (one_component [((0, 0), Pos)]). intros a b [<-|[]] [<-|[]]. apply reach_refl.
  - split; [|split; reflexivity]. exists 0. split; [|apply reach_refl]. exists (mkShape [CNode 0] [] [] true). split; [left; reflexivity|]. left. exists (CNode 0). split; [left; reflexivity|reflexivity].
Qed.
Print Assumptions C51_self_reference_refuted.
