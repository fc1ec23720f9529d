(** Lemmas about open matching with derivatives. *)

Require Import List Arith Bool Lia Permutation.
Import ListNotations.
From Verif Require Import RbeModel RbeSpec RbeDeriv RbeInterval.

(** expressions whose language survives the derivative by a foreign symbol *)
Fixpoint absorbs (e : rbe) : Prop :=
  match e with
  | Fail _ | Empty | Symbol _ _ | Star _ => True
  | And vs => fold_right (fun e P => absorbs e \/ P) False vs
  | Or vs => fold_right (fun e P => absorbs e /\ P) True vs
  | Plus v => absorbs v
  | Repeat v c => absorbs v /\ (1 <= cmin c \/ lang v bzero)
  end.

Lemma absorbs_And vs : absorbs (And vs) <-> Exists absorbs vs.
Proof.
  simpl. induction vs; simpl; [split; [tauto|intro K; inversion K]|].
  rewrite IHvs. split; [intros [H|H]; [left|right]; auto|]. intro K. inversion K; auto.
Qed.
Lemma absorbs_Or vs : absorbs (Or vs) <-> Forall absorbs vs.
Proof. apply fold_and_Forall. Qed.

Lemma open_safe_absorbs e : open_safe e -> absorbs e.
Proof.
  unfold open_safe. induction e using rbe_ind'; intro W; simpl; auto.
  - apply everywhere_And in W. destruct W as [Wn W]. apply absorbs_And.
    destruct vs as [|v vs]; [contradiction|]. left. inversion H; inversion W; subst. auto.
  - apply everywhere_Or in W. destruct W as [Wn W]. apply absorbs_Or.
    rewrite Forall_forall in *. auto.
  - apply IHe, W.
  - destruct W as [Wn W]. split; [apply IHe, W|left; exact Wn].
Qed.

Lemma absorbs_mk_and d r : absorbs d -> (d = Empty -> absorbs r) -> absorbs (mk_and d r).
Proof.
  intros Hd Hr. destruct d; unfold mk_and; try (specialize (Hr eq_refl); exact Hr);
    destruct r; try exact Hd; try exact I; apply absorbs_And; left; exact Hd.
Qed.
Lemma absorbs_mk_and_r d r : absorbs r -> is_fail r = false -> r <> Empty -> absorbs (mk_and d r).
Proof.
  intros Hr F E. destruct d; unfold mk_and; try exact Hr;
    destruct r; try discriminate; try congruence; try exact I; apply absorbs_And; right; left; exact Hr.
Qed.
Lemma absorbs_mk_or a b : absorbs a -> absorbs b -> absorbs (mk_or a b).
Proof.
  intros Ha Hb. destruct (mk_or_cases a b) as [[_ E]|[[_ E]|[[_ E]|(_ & _ & E)]]]; rewrite E; auto.
  apply absorbs_Or. repeat constructor; auto.
Qed.
Lemma absorbs_mk_or_values vs : Forall absorbs vs -> absorbs (mk_or_values vs).
Proof.
  unfold mk_or_values. assert (A : absorbs (Fail MkOrValuesFail)) by exact I.
  revert A. generalize (Fail MkOrValuesFail). induction vs; simpl; intros acc A H; [exact A|].
  inversion H; subst. apply IHvs; [apply absorbs_mk_or; assumption|assumption].
Qed.

Lemma mk_or_Empty a b : mk_or a b = Empty -> a = Empty \/ b = Empty.
Proof.
  intro H. destruct (mk_or_cases a b) as [[_ E]|[[_ E]|[[_ E]|(_ & _ & E)]]]; rewrite E in H; auto. discriminate.
Qed.
Lemma mk_or_values_Empty vs : mk_or_values vs = Empty -> In Empty vs.
Proof.
  unfold mk_or_values. assert (A : Fail MkOrValuesFail <> Empty) by discriminate.
  revert A. generalize (Fail MkOrValuesFail). induction vs; simpl; intros acc A H; [congruence|].
  destruct (mk_or_cases acc a) as [[_ E]|[[_ E]|[[_ E]|(_ & _ & E)]]]; rewrite E in H.
  - destruct a; try (right; eapply IHvs; [|exact H]; discriminate). left; reflexivity.
  - right; apply (IHvs _ A H).
  - right; apply (IHvs _ A H).
  - right; eapply IHvs; [|exact H]; discriminate.
Qed.

Lemma mk_and_Empty d r : mk_and d r = Empty -> d = Empty.
Proof. destruct d; simpl; auto; destruct r; discriminate. Qed.

(** the derivative by a symbol of the expression is never the empty expression *)
Lemma deriv_own_not_Empty e x op C : ok e -> op && negb (mem x C) = false -> deriv e x 1 op C <> Empty.
Proof.
  intros W HX. revert W. unfold ok. induction e using rbe_ind'; intros W E; simpl in E.
  - discriminate.
  - rewrite HX in E. discriminate.
  - rewrite HX in E. destruct (x =? v); [|discriminate].
    destruct (max_eqb _ _); [discriminate|]. destruct (max_ge _ _); [|discriminate].
    unfold mk_range_symbol in E. destruct (bigger _ _); discriminate.
  - destruct (deriv_n _ vs) as [|? [|? ?]]; discriminate.
  - apply everywhere_Or in W. destruct W as [_ W]. apply mk_or_values_Empty in E.
    apply in_map_iff in E. destruct E as (v & E & Hv). rewrite Forall_forall in *.
    exact (H v Hv (W v Hv) E).
  - rewrite HX in E. apply mk_and_Empty in E. apply IHe; [apply W|exact E].
  - apply mk_and_Empty in E. apply IHe; [apply W|exact E].
  - destruct (is_0_0 c) eqn:Z.
    + apply is_0_0_spec in Z. destruct W as [[_ W] _]. exfalso. apply W, Z.
    + apply mk_and_Empty in E. apply IHe; [apply W|exact E].
Qed.

Lemma mk_range_absorbs v c : absorbs v -> lang v bzero -> absorbs (mk_range v c).
Proof.
  intros A N. unfold mk_range. destruct (bigger _ _); [exact I|]. destruct (is_0_0 c); [exact I|].
  destruct (is_1_1 c); [exact A|]. destruct v; try exact I; simpl; auto.
Qed.

(** the variants of an absorbing conjunction absorb *)
Lemma absorbs_variants (d : rbe -> rbe) vs :
  Forall (fun v => absorbs v -> absorbs (d v)) vs -> Exists absorbs vs ->
  absorbs (or_of_variants (deriv_n (fun v => not_fail (d v)) vs)).
Proof.
  intros H A.
  assert (K : Forall (fun ws => absorbs (And ws)) (deriv_n (fun v => not_fail (d v)) vs)).
  { apply Forall_forall. intros ws Hws. apply deriv_n_In in Hws.
    destruct Hws as (l & v & r & y & -> & Hd & ->). apply not_fail_Some in Hd. destruct Hd as [-> _].
    apply absorbs_And. rewrite Exists_app, Exists_cons in *.
    destruct A as [A|[A|A]]; auto. right; left. rewrite Forall_forall in H. apply H; [|exact A].
    apply in_app_iff; simpl; auto. }
  destruct (deriv_n _ vs) as [|w [|w' ws]].
  - exact I.
  - inversion K; assumption.
  - unfold or_of_variants. apply absorbs_Or. apply Forall_map. exact K.
Qed.

Lemma absorbs_deriv_own e x op C : ok e -> op && negb (mem x C) = false ->
  absorbs e -> absorbs (deriv e x 1 op C).
Proof.
  intros W HX. revert W. unfold ok. induction e using rbe_ind'; intros W A; cbn [deriv].
  - exact I.
  - rewrite HX; exact I.
  - rewrite HX. destruct (x =? v); [|exact I].
    destruct (max_eqb _ _); [exact I|]. destruct (max_ge _ _); [|exact I].
    unfold mk_range_symbol. destruct (bigger _ _); exact I.
  - apply everywhere_And in W. destruct W as [_ W].
    apply (absorbs_variants (fun v => deriv v x 1 op C)); [|apply absorbs_And; exact A].
    rewrite Forall_forall in *. auto.
  - apply everywhere_Or in W. destruct W as [_ W]. apply absorbs_Or in A.
    apply absorbs_mk_or_values, Forall_map. rewrite Forall_forall in *. auto.
  - rewrite HX. apply absorbs_mk_and_r; [exact I|reflexivity|discriminate].
  - apply absorbs_mk_and_r; [exact I|reflexivity|discriminate].
  - destruct (is_0_0 c) eqn:Z; [destruct (is_nullable _); exact I|].
    apply absorbs_mk_and; [apply IHe; [apply W|apply A]|].
    intro E. exfalso. apply (deriv_own_not_Empty e x op C); [apply W|exact HX|exact E].
Qed.

(** ** The derivative by a foreign symbol *)
Section Foreign.
  Variables (x : nat) (op : bool) (C : list nat).
  Hypothesis HX : op && negb (mem x C) = true.

  Lemma foreign_sub e : ok e -> ~ In x (symbols e) -> forall b, lang (deriv e x 1 op C) b -> lang e b.
  Proof.
    unfold ok. induction e using rbe_ind'; intros W N b; cbn [deriv].
    - auto.
    - rewrite HX; auto.
    - destruct (Nat.eqb_spec x v) as [->|]; [exfalso; apply N; left; reflexivity|]. rewrite HX; auto.
    - apply everywhere_And in W. destruct W as [_ W]. rewrite lang_or_of_variants, deriv_n_lang.
      intros (l & v & r & y & -> & Hd & K). apply not_fail_Some in Hd. destruct Hd as [-> _].
      simpl lang in *. rewrite map_app in *. simpl in *. eapply sum_of_replace; [|exact K].
      intros c Hc. rewrite Forall_forall in *. apply H; auto.
      + apply in_app_iff; simpl; auto.
      + apply W, in_app_iff; simpl; auto.
      + intro K2. apply N. apply in_flat_map. exists v. split; [apply in_app_iff; simpl; auto|exact K2].
    - apply everywhere_Or in W. destruct W as [_ W].
      rewrite lang_mk_or_values, Exists_map, Exists_exists. simpl lang. rewrite any_of_iff, Exists_exists.
      intros (v & Hv & K). exists v. split; [exact Hv|]. rewrite Forall_forall in *. apply H; auto.
      intro K2. apply N, in_flat_map. eauto.
    - rewrite HX. auto.
    - rewrite lang_mk_and. intros (b1 & b2 & E & H1 & (k & H2)). exists (S k). split; [lia|].
      exists b1, b2. repeat split; auto. apply IHe; auto. apply W.
    - destruct W as [[Wn Z] W]. simpl in Z.
      assert (Q : is_0_0 c = false).
      { destruct (is_0_0 c) eqn:Q; [|reflexivity]. apply is_0_0_spec in Q. tauto. }
      rewrite Q, lang_mk_and. intros (b1 & b2 & E & H1 & H2). apply IHe in H1; [|exact W|exact N].
      apply lang_mk_range in H2.
      + destruct H2 as (k & L & H2). exists (S k). split; [apply in_card_minus; assumption|].
        exists b1, b2. repeat split; auto.
      + destruct (is_fail e) eqn:F; [|reflexivity]. exfalso. eapply lang_is_fail; eauto.
  Qed.

  Lemma foreign_sup e : ok e -> ~ In x (symbols e) -> absorbs e ->
    forall b, lang e b -> lang (deriv e x 1 op C) b.
  Proof.
    unfold ok. induction e using rbe_ind'; intros W N A b; cbn [deriv].
    - auto.
    - rewrite HX; auto.
    - destruct (Nat.eqb_spec x v) as [->|]; [exfalso; apply N; left; reflexivity|]. rewrite HX; auto.
    - apply everywhere_And in W. destruct W as [_ W]. rewrite lang_or_of_variants, deriv_n_lang.
      intro K. apply absorbs_And, Exists_exists in A. destruct A as (v & Hv & A).
      apply in_split in Hv. destruct Hv as (l & r & ->).
      assert (Hv : In v (l ++ v :: r)) by (apply in_app_iff; simpl; auto).
      assert (Nv : ~ In x (symbols v)) by (intro; apply N, in_flat_map; eauto).
      rewrite Forall_forall in *.
      pose proof (H v Hv (W v Hv) Nv A) as IH.
      simpl lang in K. rewrite map_app in K. simpl in K.
      assert (K' : sum_of (map lang l ++ lang (deriv v x 1 op C) :: map lang r) b).
      { eapply sum_of_replace; [|exact K]. exact IH. }
      exists l, v, r, (deriv v x 1 op C). split; [reflexivity|]. split.
      + destruct (is_fail (deriv v x 1 op C)) eqn:F.
        * exfalso. apply sum_of_app in K'. destruct K' as (b1 & b2 & _ & _ & (c1 & c2 & _ & K1 & _)).
          eapply lang_is_fail; eauto.
        * destruct (deriv v x 1 op C); try discriminate; reflexivity.
      + simpl lang. rewrite map_app. exact K'.
    - apply everywhere_Or in W. destruct W as [_ W]. apply absorbs_Or in A.
      rewrite lang_mk_or_values, Exists_map, Exists_exists. simpl lang. rewrite any_of_iff, Exists_exists.
      intros (v & Hv & K). exists v. split; [exact Hv|]. rewrite Forall_forall in *. apply H; auto.
      intro K2. apply N, in_flat_map. eauto.
    - rewrite HX. auto.
    - rewrite lang_mk_and. intros ([|k] & L & K); [lia|]. destruct K as (b1 & b2 & E & H1 & H2).
      exists b1, b2. repeat split; auto; [|exists k; exact H2]. apply IHe; auto. apply W.
    - destruct W as [[Wn Z] W]. simpl in Z, Wn. destruct A as [A A2].
      assert (Q : is_0_0 c = false).
      { destruct (is_0_0 c) eqn:Q; [|reflexivity]. apply is_0_0_spec in Q. tauto. }
      rewrite Q, lang_mk_and. simpl lang. intros (k & L & K).
      assert (G : exists b1 b2, beq b (bsum b1 b2) /\ lang e b1 /\ exists k', in_card (S k') c /\ pow (lang e) k' b2).
      { destruct k as [|k].
        - destruct A2 as [A2|A2]; [destruct L; lia|].
          exists b, bzero. split; [intro a; unfold bsum, bzero; lia|]. split; [exact (lang_ext e _ _ (beq_sym _ _ K) A2)|].
          exists 0. split; [|apply beq_refl]. destruct L as [L1 L2]. split; [lia|].
          destruct (cmax c) as [|[|m]]; simpl; try lia. congruence.
        - destruct K as (b1 & b2 & E & H1 & H2). exists b1, b2. repeat split; auto. exists k. auto. }
      destruct G as (b1 & b2 & E & H1 & k' & L' & H2). exists b1, b2. split; [exact E|].
      split; [apply IHe; auto|]. apply lang_mk_range.
      + destruct (is_fail e) eqn:F; [|reflexivity]. exfalso. eapply lang_is_fail; eauto.
      + exists k'. split; [apply in_card_minus; assumption|exact H2].
  Qed.

  Lemma foreign_absorbs e : ok e -> ~ In x (symbols e) -> absorbs e -> absorbs (deriv e x 1 op C).
  Proof.
    unfold ok. induction e using rbe_ind'; intros W N A; cbn [deriv].
    - exact I.
    - rewrite HX; exact I.
    - destruct (Nat.eqb_spec x v) as [->|]; [exfalso; apply N; left; reflexivity|]. rewrite HX; exact I.
    - apply everywhere_And in W. destruct W as [_ W].
      apply (absorbs_variants (fun v => deriv v x 1 op C)); [|apply absorbs_And; exact A].
      rewrite Forall_forall in *. intros v Hv. apply H; auto. intro K2. apply N, in_flat_map. eauto.
    - apply everywhere_Or in W. destruct W as [_ W]. apply absorbs_Or in A.
      apply absorbs_mk_or_values, Forall_map. rewrite Forall_forall in *. intros v Hv. apply H; auto.
      intro K2. apply N, in_flat_map. eauto.
    - rewrite HX. exact I.
    - apply absorbs_mk_and_r; [exact I|reflexivity|discriminate].
    - destruct (is_0_0 c) eqn:Z; [destruct (is_nullable _); exact I|].
      apply absorbs_mk_and; [apply IHe; [apply W|exact N|apply A]|].
      intro E. apply mk_range_absorbs; [apply A|].
      apply foreign_sub; [apply W|exact N|]. rewrite E. apply beq_refl.
  Qed.
End Foreign.

(** derivatives introduce no symbols *)
Lemma symbols_mk_and d r x : In x (symbols (mk_and d r)) -> In x (symbols d) \/ In x (symbols r).
Proof.
  destruct d; simpl; auto; destruct r; simpl; auto; rewrite ?app_nil_r; intro H;
    rewrite ?in_app_iff in H; simpl in *; rewrite ?in_app_iff in *; tauto.
Qed.
Lemma symbols_mk_or a b x : In x (symbols (mk_or a b)) -> In x (symbols a) \/ In x (symbols b).
Proof.
  destruct (mk_or_cases a b) as [[_ E]|[[_ E]|[[_ E]|(_ & _ & E)]]]; rewrite E; auto.
  simpl. rewrite app_nil_r, in_app_iff. auto.
Qed.
Lemma symbols_mk_or_values vs x : In x (symbols (mk_or_values vs)) -> exists v, In v vs /\ In x (symbols v).
Proof.
  unfold mk_or_values.
  assert (G : forall acc, In x (symbols (fold_left mk_or vs acc)) ->
              In x (symbols acc) \/ exists v, In v vs /\ In x (symbols v)).
  { induction vs as [|v vs IH]; simpl; intros acc H; [auto|]. apply IH in H.
    destruct H as [H|(w & Hw & H)]; [|right; eauto].
    apply symbols_mk_or in H. destruct H; [auto|]. right; eauto. }
  intro H. apply G in H. destruct H as [[]|H]. exact H.
Qed.
Lemma symbols_mk_range v c x : In x (symbols (mk_range v c)) -> In x (symbols v).
Proof.
  unfold mk_range. destruct (bigger _ _); [intros []|]. destruct (is_0_0 c); [intros []|].
  destruct (is_1_1 c); auto. destruct v; auto.
Qed.

Lemma symbols_deriv e x n op C y : In y (symbols (deriv e x n op C)) -> In y (symbols e).
Proof.
  induction e using rbe_ind'; cbn [deriv]; intro K.
  - exact K.
  - destruct (op && negb (mem x C)); exact K.
  - destruct (Nat.eqb_spec x v) as [->|].
    + destruct (max_eqb _ _); [destruct K|]. destruct (max_ge _ _); [|destruct K].
      unfold mk_range_symbol in K. destruct (bigger _ _); [destruct K|exact K].
    + destruct (op && negb (mem x C)); [exact K|destruct K].
  - assert (G : exists ws, In ws (deriv_n (fun v => not_fail (deriv v x n op C)) vs) /\
                  In y (flat_map symbols ws)).
    { destruct (deriv_n _ vs) as [|w [|w' ws]]; [destruct K|exists w; split; [left; reflexivity|exact K]|].
      unfold or_of_variants in K. change (In y (flat_map symbols (map And (w :: w' :: ws)))) in K.
      apply in_flat_map in K. destruct K as (u & Hu & K). apply in_map_iff in Hu.
      destruct Hu as (z & <- & Hz). exists z. auto. }
    destruct G as (ws & Hws & G). apply deriv_n_In in Hws.
    destruct Hws as (l & v & r & z & -> & Hd & ->). apply not_fail_Some in Hd. destruct Hd as [-> _].
    simpl. rewrite flat_map_app in *. simpl in *. rewrite !in_app_iff in *.
    destruct G as [G|[G|G]]; auto. right; left. rewrite Forall_forall in H. apply H; [|exact G].
    apply in_app_iff; simpl; auto.
  - apply symbols_mk_or_values in K. destruct K as (w & Hw & K). apply in_map_iff in Hw.
    destruct Hw as (v & <- & Hv). simpl. apply in_flat_map. exists v. split; [exact Hv|].
    rewrite Forall_forall in H. auto.
  - destruct (op && negb (mem x C)); [exact K|]. apply symbols_mk_and in K. destruct K as [K|K]; auto.
  - apply symbols_mk_and in K. destruct K as [K|K]; auto.
  - destruct (is_0_0 c); [destruct (is_nullable _); destruct K|].
    apply symbols_mk_and in K. destruct K as [K|K]; [auto|]. apply symbols_mk_range in K. exact K.
Qed.

(** ** Whole bags *)

Lemma deriv_bag_open C b : forall e, ok e -> absorbs e -> (forall x, In x (symbols e) -> In x C) ->
  ok (deriv_bag e b true C) /\
  (lang (deriv_bag e b true C) bzero <-> lang e (bag_of (filter (fun s => mem s C) b))).
Proof.
  induction b as [|x b IH]; intros e W A S.
  - simpl deriv_bag. split; [exact W|]. tauto.
  - rewrite deriv_bag_cons.
    assert (K : (lang (deriv e x 1 true C) (bag_of (filter (fun s => mem s C) b)) <->
                 lang e (bag_of (filter (fun s => mem s C) (x :: b)))) /\ absorbs (deriv e x 1 true C)).
    { simpl filter. destruct (mem x C) eqn:M.
      - assert (HX : true && negb (mem x C) = false) by (rewrite M; reflexivity).
        split; [|apply absorbs_deriv_own; assumption].
        rewrite deriv_own by assumption. split; apply lang_ext.
        + apply beq_sym, bag_of_cons.
        + apply bag_of_cons.
      - assert (HX : true && negb (mem x C) = true) by (rewrite M; reflexivity).
        assert (N : ~ In x (symbols e)) by (intro K; apply S in K; apply mem_spec in K; congruence).
        split; [|apply foreign_absorbs; assumption].
        split; [apply foreign_sub; assumption|apply foreign_sup; assumption]. }
    destruct K as [K A'].
    destruct (is_fail (deriv e x 1 true C)) eqn:F.
    + split; [apply ok_Fail|]. rewrite <- K. simpl. split; [tauto|].
      apply lang_is_fail; assumption.
    + destruct (IH (deriv e x 1 true C) (ok_deriv _ _ _ _ _ W) A') as [IH1 IH2].
      { intros y Hy. apply S. eapply symbols_deriv; eauto. }
      split; [exact IH1|]. rewrite IH2. exact K.
Qed.

Theorem match_bag_deriv_open e b : wf e -> no00 e -> open_safe e ->
  (match_bag_deriv e b true = None <-> lang e (bag_of (filter (fun s => mem s (symbols e)) b))).
Proof.
  intros W Z O. destruct (deriv_bag_open (symbols e) b e (ok_intro e W Z) (open_safe_absorbs e O)) as [H1 H2].
  { auto. }
  rewrite match_of_deriv by exact H1. exact H2.
Qed.

Lemma rb_filter l b : beq (rb l (bag_of b)) (bag_of (filter (fun s => mem s l) b)).
Proof.
  intro a. unfold rb, bag_of. destruct (mem a l) eqn:M.
  - induction b as [|y b IH]; [reflexivity|]. simpl. destruct (Nat.eq_dec y a) as [->|N].
    + rewrite M. simpl. destruct (Nat.eq_dec a a); [|contradiction]. rewrite IH. reflexivity.
    + destruct (mem y l); simpl; [destruct (Nat.eq_dec y a); [contradiction|]|]; exact IH.
  - symmetry. apply count_occ_not_In. intro H. apply filter_In in H. destruct H; congruence.
Qed.
