(** Lemmas about the feasibility refutation. *)

Require Import List Arith Bool Lia.
Import ListNotations.
From Verif Require Import RbeModel RbeSpec RbeDeriv RbeInterval RbeFeasModel.

Section Sound.
  Variables (lo hi : nat -> nat).

  (** the slice [c] of a bag is between the bounds on the symbols of [e] *)
  Definition between (e : rbe) (c : mbag) : Prop := forall a, In a (symbols e) -> lo a <= c a <= hi a.

  Definition good (e : rbe) : Prop := single e \/ forall a, lo a = 0.

  Lemma zero_sound e : (forall a, In a (symbols e) -> lo a = 0) -> f_zero lo e = true.
  Proof.
    induction e using rbe_ind'; simpl; intro K; auto.
    - apply Nat.eqb_eq, K. auto.
    - rewrite Forall_forall in H. apply forallb_forall. intros v Hv. apply H; auto.
      intros a Ha. apply K, in_flat_map. eauto.
    - rewrite Forall_forall in H. apply forallb_forall. intros v Hv. apply H; auto.
      intros a Ha. apply K, in_flat_map. eauto.
  Qed.

  Lemma once_sound e c : lang e c -> (forall a, In a (symbols e) -> c a <= hi a) -> f_once hi e = true.
  Proof.
    revert c. induction e using rbe_ind'; intros b Hb K.
    - contradiction.
    - reflexivity.
    - simpl. apply orb_true_iff. right. apply Nat.leb_le. destruct Hb as [_ [Hb _]].
      specialize (K v (or_introl eq_refl)). lia.
    - simpl. revert b Hb K. induction H as [|v vs Hv Hvs IH]; intros b Hb K; [reflexivity|].
      destruct Hb as (b1 & b2 & E & H1 & H2). simpl. apply andb_true_iff. split.
      + apply (Hv b1 H1). intros a Ha. specialize (E a). unfold bsum in E.
        specialize (K a (in_or_app _ _ _ (or_introl Ha))). lia.
      + apply (IH b2 H2). intros a Ha. specialize (E a). unfold bsum in E.
        specialize (K a (in_or_app _ _ _ (or_intror Ha))). lia.
    - simpl lang in Hb. apply any_of_iff, Exists_exists in Hb. destruct Hb as (v & Hv & Hb).
      simpl. apply existsb_exists. exists v. split; [exact Hv|]. rewrite Forall_forall in H.
      apply (H v Hv b Hb). intros a Ha. apply K, in_flat_map. eauto.
    - reflexivity.
    - destruct Hb as ([|k] & L & Hb); [lia|]. destruct Hb as (b1 & b2 & E & H1 & H2).
      apply (IHe b1 H1). intros a Ha. specialize (E a). unfold bsum in E. specialize (K a Ha). lia.
    - simpl. destruct (Nat.eqb_spec (cmin c) 0) as [|N]; [reflexivity|].
      destruct Hb as ([|k] & [L _] & Hb); [lia|]. destruct Hb as (b1 & b2 & E & H1 & H2).
      apply (IHe b1 H1). intros a Ha. specialize (E a). unfold bsum in E. specialize (K a Ha). lia.
  Qed.

  Lemma pow_once e q c : 1 <= q -> pow (lang e) q c -> (forall a, In a (symbols e) -> c a <= hi a) ->
    f_once hi e = true.
  Proof.
    intros L H K. destruct q as [|q]; [lia|]. destruct H as (b1 & b2 & E & H1 & H2).
    apply (once_sound e b1 H1). intros a Ha. specialize (E a). unfold bsum in E. specialize (K a Ha). lia.
  Qed.

  Lemma good_cons v vs (f : list rbe -> rbe) :
    (f = And \/ f = Or) -> good (f (v :: vs)) -> good v /\ good (f vs).
  Proof.
    intros F [G|G]; [|split; right; exact G].
    destruct F as [->| ->]; destruct G as [G1 G2]; simpl in G1; inversion G2; subst;
      (split; [left; apply G1|left; split; [apply G1|assumption]]).
  Qed.

  (** the bounds restrict to the parts of a split along a list *)
  Lemma between_cons v vs (f : list rbe -> rbe) c c1 c2 :
    (f = And \/ f = Or) -> good (f (v :: vs)) -> between (f (v :: vs)) c -> beq c (bsum c1 c2) ->
    (forall a, ~ In a (symbols v) -> c1 a = 0) -> (forall a, ~ In a (flat_map symbols vs) -> c2 a = 0) ->
    between v c1 /\ between (f vs) c2.
  Proof.
    intros F G B E S1 S2.
    assert (B' : forall a, In a (symbols v ++ flat_map symbols vs) -> lo a <= c a <= hi a).
    { destruct F as [->| ->]; exact B. }
    clear B.
    assert (D : (forall a, In a (symbols v) -> In a (flat_map symbols vs) -> False) \/ forall a, lo a = 0).
    { destruct G as [G|G]; [left|right; exact G].
      assert (ForallOrdPairs disj (v :: vs)) by (apply single_disj; destruct F as [->| ->]; apply G).
      inversion H; subst. apply disj_flat. assumption. }
    assert (Q : between (And vs) c2 -> between (f vs) c2) by (destruct F as [->| ->]; auto).
    split; [|apply Q]; intros a Ha; specialize (E a); unfold bsum in E;
      (destruct D as [D|D]; [|rewrite (D a)]).
    - rewrite (S2 a) in E by eauto. specialize (B' a (in_or_app _ _ _ (or_introl Ha))). lia.
    - specialize (B' a (in_or_app _ _ _ (or_introl Ha))). lia.
    - rewrite (S1 a) in E by eauto. specialize (B' a (in_or_app _ _ _ (or_intror Ha))). lia.
    - specialize (B' a (in_or_app _ _ _ (or_intror Ha))). lia.
  Qed.

  Lemma between_zero e c : between e c -> beq c bzero -> f_zero lo e = true.
  Proof.
    intros B Z. apply zero_sound. intros a Ha. specialize (B a Ha). rewrite (Z a) in B.
    unfold bzero in B. lia.
  Qed.

  Lemma pow_Repeat_inner v c q b : pow (lang (Repeat v c)) q b ->
    exists j, q * cmin c <= j /\ (cmax c = IntMax 0 -> j = 0) /\ pow (lang v) j b.
  Proof.
    revert b. induction q; intros b H.
    - exists 0. split; [lia|]. split; [reflexivity|exact H].
    - destruct H as (b1 & b2 & E & (k & [L1 L2] & H1) & H2). apply IHq in H2.
      destruct H2 as (j & L3 & L4 & H2). exists (k + j). split; [simpl; lia|]. split.
      + intro Z. rewrite Z in L2. simpl in L2. rewrite (L4 Z). lia.
      + eapply pow_ext; [apply beq_sym, E|]. apply pow_add; assumption.
  Qed.

  Lemma fi_sound e : forall q c, good e -> 1 <= q -> pow (lang e) q c -> between e c -> f_fi lo hi e = true.
  Proof.
    induction e using rbe_ind'; intros q b G L Hb B.
    - destruct q; [lia|]. destruct Hb as (? & ? & _ & [] & _).
    - reflexivity.
    - assert (S : forall a, a <> v -> b a = 0).
      { intros a N. eapply pow_supp; [apply (lang_supp (Symbol v c))|exact Hb|]. simpl. intuition. }
      apply pow_Symbol in Hb; [|exact S]. destruct Hb as [H1 H2].
      specialize (B v (or_introl eq_refl)). simpl. apply andb_true_iff. split.
      + apply orb_true_iff. right. apply Nat.leb_le.
        assert (1 * cmin c <= q * cmin c) by (apply Nat.mul_le_mono_r; exact L). lia.
      + destruct (max_eqb (cmax c) (IntMax 0)) eqn:Z; [|reflexivity]. apply max_eqb_eq in Z.
        rewrite Z in H2. simpl in H2. rewrite Nat.mul_0_r in H2. apply Nat.eqb_eq. lia.
    - simpl. revert b Hb B G. induction H as [|v vs Hv Hvs IH]; intros b Hb B G; [reflexivity|].
      apply pow_And_cons in Hb. destruct Hb as (b1 & b2 & E & H1 & H2).
      destruct (between_cons v vs And b b1 b2 (or_introl eq_refl) G B E) as [B1 B2].
      { intros a N. eapply pow_supp; [apply lang_supp|exact H1|exact N]. }
      { intros a N. eapply pow_supp; [apply (lang_supp (And vs))|exact H2|exact N]. }
      destruct (good_cons v vs And (or_introl eq_refl) G) as [G1 G2].
      simpl. apply andb_true_iff. split; [eapply Hv; eauto|eapply IH; eauto].
    - simpl. clear L. revert q b Hb B G. induction H as [|v vs Hv Hvs IH]; intros q b Hb B G; [reflexivity|].
      apply pow_Or_cons in Hb. destruct Hb as (q1 & q2 & b1 & b2 & -> & E & H1 & H2).
      destruct (between_cons v vs Or b b1 b2 (or_intror eq_refl) G B E) as [B1 B2].
      { intros a N. eapply pow_supp; [apply lang_supp|exact H1|exact N]. }
      { intros a N. eapply pow_supp; [apply (lang_supp (Or vs))|exact H2|exact N]. }
      destruct (good_cons v vs Or (or_intror eq_refl) G) as [G1 G2].
      simpl. apply andb_true_iff. split; [|eapply IH; eauto].
      apply orb_true_iff. destruct q1 as [|q1]; [left; eapply between_zero; eauto|].
      right. eapply (Hv (S q1)); [exact G1|lia|exact H1|exact B1].
    - destruct q as [|q]; [lia|]. apply pow_Star in Hb. destruct Hb as ([|j] & Hb).
      + simpl. rewrite (between_zero e b); [reflexivity|exact B|exact Hb].
      + simpl. apply orb_true_iff. right. eapply (IHe (S j)); [exact G|lia|exact Hb|exact B].
    - destruct q as [|q]; [lia|]. apply pow_Plus in Hb. destruct Hb as (j & Lj & Hb).
      simpl. apply andb_true_iff. split; [eapply (IHe j); eauto; lia|].
      apply (pow_once e j b); [lia|exact Hb|]. intros a Ha. apply B, Ha.
    - apply pow_Repeat_inner in Hb. destruct Hb as (j & Lj & Z & Hb). simpl.
      destruct (max_eqb (cmax c) (IntMax 0)) eqn:M.
      + apply max_eqb_eq in M. rewrite (Z M) in Hb. eapply between_zero; [exact B|exact Hb].
      + destruct (Nat.eqb_spec (cmin c) 0) as [|N].
        * apply orb_true_iff. destruct j as [|j]; [left; eapply between_zero; [exact B|exact Hb]|].
          right. eapply (IHe (S j)); [exact G|lia|exact Hb|exact B].
        * assert (1 <= j).
          { assert (1 * 1 <= q * cmin c) by (apply Nat.mul_le_mono; lia). lia. }
          apply andb_true_iff. split; [eapply (IHe j); [exact G|lia|exact Hb|exact B]|].
          apply (pow_once e j b); [lia|exact Hb|]. intros a Ha. apply B, Ha.
  Qed.

  Lemma enumerate_In {A} (l : list A) i x : In (i, x) (enumerate l) <-> nth_error l i = Some x.
  Proof.
    unfold enumerate.
    assert (G : forall s, In (i, x) (combine (seq s (length l)) l) <-> s <= i /\ nth_error l (i - s) = Some x).
    { induction l as [|y l IH]; intro s; simpl.
      - split; [tauto|]. intros [_ H]. destruct (i - s); discriminate.
      - rewrite IH. split.
        + intros [H|[L H]].
          * injection H as <- <-. split; [lia|]. rewrite Nat.sub_diag. reflexivity.
          * split; [lia|]. replace (i - s) with (S (i - S s)) by lia. exact H.
        + intros [L H]. destruct (i - s) as [|d] eqn:D.
          * left. simpl in H. injection H as ->. f_equal. lia.
          * right. split; [lia|]. replace (i - S s) with d by lia. exact H. }
    rewrite G, Nat.sub_0_r. split; [tauto|]. intro; split; [lia|assumption].
  Qed.

  Lemma pairs_nth (R : rbe -> rbe -> Prop) vs : (forall x y, R x y -> R y x) -> ForallOrdPairs R vs ->
    forall i j v w, nth_error vs i = Some v -> nth_error vs j = Some w -> i <> j -> R v w.
  Proof.
    intros Sy H. induction H as [|x l Hx _ IH]; intros i j v w Hi Hj N.
    - destruct i; discriminate.
    - destruct i, j; simpl in *; try congruence.
      + injection Hi as <-. rewrite Forall_forall in Hx. apply Hx. eapply nth_error_In; eauto.
      + injection Hj as <-. apply Sy. rewrite Forall_forall in Hx. apply Hx. eapply nth_error_In; eauto.
      + eapply IH; eauto.
  Qed.

  Lemma fx_sound e : forall c, good e -> lang e c -> between e c -> f_fx lo hi e = true.
  Proof.
    induction e using rbe_ind'; intros b G Hb B.
    - contradiction.
    - reflexivity.
    - destruct Hb as [S [H1 H2]]. specialize (B v (or_introl eq_refl)). simpl. apply andb_true_iff.
      split; [|apply Nat.leb_le; lia]. destruct (cmax c); [reflexivity|]. simpl in H2. apply Nat.leb_le. lia.
    - simpl. revert b Hb B G. induction H as [|v vs Hv Hvs IH]; intros b Hb B G; [reflexivity|].
      destruct Hb as (b1 & b2 & E & H1 & H2).
      destruct (between_cons v vs And b b1 b2 (or_introl eq_refl) G B E) as [B1 B2].
      { intros a N. eapply lang_supp; [exact H1|exact N]. }
      { intros a N. apply (lang_supp (And vs) b2 a); [exact H2|exact N]. }
      destruct (good_cons v vs And (or_introl eq_refl) G) as [G1 G2].
      simpl. apply andb_true_iff. split; [eapply Hv; eauto|eapply IH; eauto].
    - simpl lang in Hb. apply any_of_iff, Exists_exists in Hb. destruct Hb as (v & Hv & Hb).
      cbn [f_fx]. cbv zeta. apply existsb_exists.
      apply In_nth_error in Hv. destruct Hv as (i & Hi). exists (i, f_fx lo hi v).
      split; [apply enumerate_In; rewrite nth_error_map, Hi; reflexivity|].
      apply andb_true_iff. split.
      + rewrite Forall_forall in H. apply (H v (nth_error_In _ _ Hi) b); [|exact Hb|].
        * destruct G as [[G _]|G]; [left|right; exact G]. rewrite fold_and_Forall, Forall_forall in G.
          apply G. eapply nth_error_In; eauto.
        * intros a Ha. apply B. simpl. apply in_flat_map. exists v. split; [eapply nth_error_In; eauto|exact Ha].
      + apply forallb_forall. intros [j w] Hj. apply enumerate_In in Hj.
        destruct (Nat.eqb_spec j i) as [|N]; [reflexivity|]. apply zero_sound. intros a Ha.
        destruct G as [[_ G]|G]; [|apply G]. apply single_disj in G.
        assert (D : disj v w).
        { eapply (pairs_nth disj); [|exact G|exact Hi|exact Hj|congruence]. unfold disj. eauto. }
        assert (Z : b a = 0) by (apply (lang_supp v b a Hb); intro; eapply D; eauto).
        assert (Ba : lo a <= b a <= hi a).
        { apply B. simpl. apply in_flat_map. exists w. split; [eapply nth_error_In; eauto|exact Ha]. }
        lia.
    - destruct Hb as ([|j] & Hb); simpl; apply orb_true_iff.
      + left. eapply between_zero; [exact B|exact Hb].
      + right. apply andb_true_iff. split; [eapply (fi_sound e (S j)); [exact G|lia|exact Hb|exact B]|].
        apply (pow_once e (S j) b); [lia|exact Hb|]. intros a Ha. apply B, Ha.
    - destruct Hb as (j & L & Hb). simpl. apply andb_true_iff.
      split; [eapply (fi_sound e j); [exact G|exact L|exact Hb|exact B]|].
      apply (pow_once e j b); [exact L|exact Hb|]. intros a Ha. apply B, Ha.
    - destruct Hb as (j & [L1 L2] & Hb). simpl. destruct (max_eqb (cmax c) (IntMax 0)) eqn:M.
      { apply max_eqb_eq in M. rewrite M in L2. simpl in L2. assert (j = 0) by lia. subst j.
        eapply between_zero; [exact B|exact Hb]. }
      assert (P : 1 <= j -> f_fi lo hi e && f_once hi e = true).
      { intro L. apply andb_true_iff. split; [eapply (fi_sound e j); [exact G|exact L|exact Hb|exact B]|].
        apply (pow_once e j b); [exact L|exact Hb|]. intros a Ha. apply B, Ha. }
      destruct (Nat.eqb_spec (cmin c) 0) as [|N]; simpl.
      + destruct (max_eqb (cmax c) (IntMax 1)) eqn:M1; apply orb_true_iff.
        * apply max_eqb_eq in M1. rewrite M1 in L2. simpl in L2. destruct j as [|[|j]]; [| |lia].
          -- left. eapply between_zero; [exact B|exact Hb].
          -- right. apply (IHe b G); [exact (proj1 (pow_1 _ _ (lang_ext e)) Hb)|exact B].
        * destruct j; [left; eapply between_zero; [exact B|exact Hb]|right; apply P; lia].
      + apply P. lia.
  Qed.
End Sound.

Theorem feasible_sound lo hi e c : (single e \/ forall a, lo a = 0) ->
  (forall a, lo a <= c a <= hi a) -> lang e c -> feasible lo hi e = true.
Proof. intros G B L. apply (fx_sound lo hi e c); [exact G|exact L|]. intros a _. apply B. Qed.
