(** Lemmas about the derivative matcher. *)

Require Import List Arith Bool Lia Permutation.
Import ListNotations.
From Verif Require Import RbeModel RbeSpec.

(** ** Induction *)

Section RbeInd.
  Variable P : rbe -> Prop.
  Hypothesis HFail : forall e, P (Fail e).
  Hypothesis HEmpty : P Empty.
  Hypothesis HSymbol : forall v c, P (Symbol v c).
  Hypothesis HAnd : forall vs, Forall P vs -> P (And vs).
  Hypothesis HOr : forall vs, Forall P vs -> P (Or vs).
  Hypothesis HStar : forall v, P v -> P (Star v).
  Hypothesis HPlus : forall v, P v -> P (Plus v).
  Hypothesis HRepeat : forall v c, P v -> P (Repeat v c).
  Fixpoint rbe_ind' (e : rbe) : P e :=
    match e with
    | Fail er => HFail er
    | Empty => HEmpty
    | Symbol v c => HSymbol v c
    | And vs => HAnd vs ((fix go l : Forall P l :=
                            match l with
                            | [] => Forall_nil P
                            | x :: xs => Forall_cons x (rbe_ind' x) (go xs)
                            end) vs)
    | Or vs => HOr vs ((fix go l : Forall P l :=
                            match l with
                            | [] => Forall_nil P
                            | x :: xs => Forall_cons x (rbe_ind' x) (go xs)
                            end) vs)
    | Star v => HStar v (rbe_ind' v)
    | Plus v => HPlus v (rbe_ind' v)
    | Repeat v c => HRepeat v c (rbe_ind' v)
    end.
End RbeInd.

(** ** Bags *)

Lemma beq_refl b : beq b b.
Proof. intro; reflexivity. Qed.
Lemma beq_sym b c : beq b c -> beq c b.
Proof. intros H a; symmetry; apply H. Qed.
Lemma beq_trans b c d : beq b c -> beq c d -> beq b d.
Proof. intros H K a; rewrite H; apply K. Qed.
Lemma bsum_comm b c : beq (bsum b c) (bsum c b).
Proof. intro a; unfold bsum; lia. Qed.
Lemma bsum_ext b b' c c' : beq b b' -> beq c c' -> beq (bsum b c) (bsum b' c').
Proof. intros H K a; unfold bsum; rewrite H, K; reflexivity. Qed.
Lemma bone_same x : bone x x = 1.
Proof. unfold bone; rewrite Nat.eqb_refl; reflexivity. Qed.
Lemma bone_other x a : x <> a -> bone x a = 0.
Proof. intro H; unfold bone; apply Nat.eqb_neq in H; rewrite H; reflexivity. Qed.

(** one occurrence of [x] removed *)
Definition bminus (b : mbag) (x : nat) : mbag := fun a => b a - bone x a.
Lemma bminus_spec b x : b x > 0 -> beq b (bsum (bone x) (bminus b x)).
Proof.
  intros H a; unfold bsum, bminus.
  destruct (Nat.eq_dec x a) as [->|Hn].
  - rewrite bone_same; lia.
  - rewrite (bone_other _ _ Hn); lia.
Qed.

Lemma bag_of_cons x l : beq (bag_of (x :: l)) (bsum (bone x) (bag_of l)).
Proof.
  intro a; unfold bag_of, bsum; simpl.
  destruct (Nat.eq_dec x a) as [->|Hn].
  - rewrite bone_same; lia.
  - rewrite (bone_other _ _ Hn); lia.
Qed.

Definition ext (P : mbag -> Prop) := forall b c, beq b c -> P b -> P c.

Lemma pow_ext P k : ext (pow P k).
Proof.
  destruct k; simpl; intros b c H.
  - intro K. eapply beq_trans; [apply beq_sym, H|exact K].
  - intros (b1 & b2 & E & H1 & H2). exists b1, b2. split; [|tauto].
    eapply beq_trans; [apply beq_sym, H|exact E].
Qed.

Lemma sum_of_ext Ps : ext (sum_of Ps).
Proof.
  destruct Ps; simpl; intros b c H.
  - intro K. eapply beq_trans; [apply beq_sym, H|exact K].
  - intros (b1 & b2 & E & H1 & H2). exists b1, b2. split; [|tauto].
    eapply beq_trans; [apply beq_sym, H|exact E].
Qed.

Lemma lang_ext e : ext (lang e).
Proof.
  induction e using rbe_ind'; intros b c' Hb; simpl.
  - tauto.
  - intro K. eapply beq_trans; [apply beq_sym, Hb|exact K].
  - intros [K1 K2]. split.
    + intros a Ha. rewrite <- Hb. auto.
    + rewrite <- Hb. exact K2.
  - apply sum_of_ext, Hb.
  - induction H as [|v vs Hv Hvs IH]; simpl; [tauto|].
    intros [K|K]; [left; eapply Hv; eauto|right; auto].
  - intros [k K]. exists k. eapply pow_ext; eauto.
  - intros [k [L K]]. exists k. split; [exact L|]. eapply pow_ext; eauto.
  - intros [k [L K]]. exists k. split; [exact L|]. eapply pow_ext; eauto.
Qed.

(** ** Powers *)

Lemma pow_iff P Q k b : (forall c, P c <-> Q c) -> pow P k b <-> pow Q k b.
Proof.
  intro H. revert b. induction k; simpl; intro b; [tauto|].
  split; intros (b1 & b2 & E & H1 & H2); exists b1, b2; rewrite ?IHk in *; firstorder.
Qed.

Lemma pow_1 P b : ext P -> (pow P 1 b <-> P b).
Proof.
  intro HP. simpl. split.
  - intros (b1 & b2 & E & H1 & H2). eapply HP; [|exact H1].
    intro a. rewrite E. unfold bsum. rewrite H2. unfold bzero. lia.
  - intro H. exists b, bzero. repeat split; auto.
    intro a. unfold bsum, bzero. lia.
Qed.

Lemma bsum_zero b1 b2 : beq bzero (bsum b1 b2) -> beq b1 bzero /\ beq b2 bzero.
Proof.
  intro H. split; intro a; specialize (H a); unfold bsum, bzero in *; lia.
Qed.

Lemma pow_zero_in P k : ext P -> P bzero -> pow P k bzero.
Proof.
  intros HP H. induction k; simpl; [apply beq_refl|].
  exists bzero, bzero. repeat split; auto.
Qed.

Lemma pow_zero_out P k : ext P -> pow P (S k) bzero -> P bzero.
Proof.
  intros HP (b1 & b2 & E & H1 & H2).
  apply bsum_zero in E. destruct E as [E _]. eapply HP; [exact E|exact H1].
Qed.

Lemma pow_deriv P x k b : ext P ->
  (pow P k (bsum (bone x) b) <->
   exists k' b1 b2, k = S k' /\ beq b (bsum b1 b2) /\ P (bsum (bone x) b1) /\ pow P k' b2).
Proof.
  intro HP. split.
  - revert b. induction k; simpl; intros b H.
    + specialize (H x). unfold bsum in H. rewrite bone_same in H. unfold bzero in H. lia.
    + destruct H as (c1 & c2 & E & H1 & H2).
      destruct (Nat.eq_dec (c1 x) 0) as [Z|Z].
      * assert (Hc2 : c2 x > 0).
        { specialize (E x). unfold bsum in E. rewrite bone_same in E. lia. }
        pose proof (bminus_spec c2 x Hc2) as E2.
        eapply pow_ext in H2; [|exact E2].
        apply IHk in H2. destruct H2 as (k' & d1 & d2 & -> & Ed & Hd1 & Hd2).
        exists (S k'), d1, (bsum c1 d2). repeat split; auto.
        -- intro a. specialize (E a). specialize (E2 a). specialize (Ed a).
           unfold bsum in *. lia.
        -- simpl. exists c1, d2. repeat split; auto; apply beq_refl.
      * pose proof (bminus_spec c1 x ltac:(lia)) as E1.
        exists k, (bminus c1 x), c2. repeat split; auto.
        -- intro a. specialize (E a). specialize (E1 a). unfold bsum in *. lia.
        -- exact (HP _ _ E1 H1).
  - intros (k' & b1 & b2 & -> & E & H1 & H2). simpl.
    exists (bsum (bone x) b1), b2. repeat split; auto.
    intro a. specialize (E a). unfold bsum in *. lia.
Qed.

(** ** Nullability *)

Lemma sum_of_zero vs : Forall (fun v => ext (lang v)) vs ->
  (sum_of (map lang vs) bzero <-> Forall (fun v => lang v bzero) vs).
Proof.
  induction 1 as [|v vs Hv Hvs IH]; simpl.
  - split; [constructor|intros _; apply beq_refl].
  - split.
    + intros (b1 & b2 & E & H1 & H2). apply bsum_zero in E. destruct E as [E1 E2].
      constructor; [exact (Hv _ _ E1 H1)|]. apply IH. exact (sum_of_ext _ _ _ E2 H2).
    + intro K. inversion K; subst. exists bzero, bzero.
      split; [intro; reflexivity|]. split; [assumption|]. apply IH; assumption.
Qed.

Lemma any_of_iff vs b : any_of (map lang vs) b <-> Exists (fun v => lang v b) vs.
Proof.
  induction vs as [|v vs IH]; simpl.
  - split; [tauto|intro K; inversion K].
  - rewrite IH. split.
    + intros [K|K]; [left|right]; assumption.
    + intro K; inversion K; subst; tauto.
Qed.

Lemma everywhere_list P vs :
  fold_right (fun e Q => everywhere P e /\ Q) True vs <-> Forall (everywhere P) vs.
Proof.
  induction vs; simpl; [split; [constructor|tauto]|].
  rewrite IHvs. split; [intros []; constructor; auto|inversion 1; auto].
Qed.

Lemma everywhere_And P vs : everywhere P (And vs) <-> P (And vs) /\ Forall (everywhere P) vs.
Proof. simpl; rewrite everywhere_list; tauto. Qed.
Lemma everywhere_Or P vs : everywhere P (Or vs) <-> P (Or vs) /\ Forall (everywhere P) vs.
Proof. simpl; rewrite everywhere_list; tauto. Qed.
Lemma everywhere_node P e : everywhere P e -> P e.
Proof. destruct e; simpl; tauto. Qed.

Definition mv_errors (rs : list (list derr + list nat)) :=
  flat_map (fun r => match r with inl es => es | inr _ => [] end) rs.
Definition mv_mandatory (rs : list (list derr + list nat)) :=
  flat_map (fun r => match r with inr ws => ws | inl _ => [] end) rs.

(** the meaning of a [mandatory_values] answer *)
Definition mv_ok (e : rbe) (r : list derr + list nat) : Prop :=
  match r with
  | inl [] => False
  | inr [] => lang e bzero
  | _ => ~ lang e bzero
  end.

Lemma mandatory_values_ok e : wf e -> mv_ok e (mandatory_values e).
Proof.
  unfold wf. induction e using rbe_ind'; intro W; simpl mandatory_values.
  - simpl. tauto.
  - simpl. apply beq_refl.
  - unfold card_nullable. destruct (Nat.eqb_spec (cmin c) 0) as [E|E]; simpl.
    + split; [reflexivity|]. unfold in_card, bzero. rewrite E.
      split; [lia|]. destruct (cmax c); simpl; lia.
    + unfold in_card, bzero. lia.
  - apply everywhere_And in W. destruct W as [_ W].
    fold (mv_errors (map mandatory_values vs)) (mv_mandatory (map mandatory_values vs)).
    assert (K : match mv_errors (map mandatory_values vs) with
                | [] => match mv_mandatory (map mandatory_values vs) with
                        | [] => Forall (fun v => lang v bzero) vs
                        | _ => ~ Forall (fun v => lang v bzero) vs
                        end
                | _ => ~ Forall (fun v => lang v bzero) vs
                end).
    { induction H as [|v vs Hv Hvs IH]; simpl; [constructor|].
      inversion W; subst. specialize (Hv H1). specialize (IH H2).
      unfold mv_ok in Hv.
      destruct (mandatory_values v) as [[|e es]|[|m ms]] eqn:E; simpl.
      - contradiction.
      - intro K; inversion K; subst; auto.
      - destruct (mv_errors (map mandatory_values vs)).
        + destruct (mv_mandatory (map mandatory_values vs)).
          * constructor; auto.
          * intro K; inversion K; subst; auto.
        + intro K; inversion K; subst; auto.
      - destruct (mv_errors (map mandatory_values vs)); intro K; inversion K; subst; auto. }
    assert (EX : Forall (fun v => ext (lang v)) vs).
    { apply Forall_forall. intros; apply lang_ext. }
    destruct (mv_errors (map mandatory_values vs)) eqn:E1.
    + destruct (mv_mandatory (map mandatory_values vs)) eqn:E2; simpl.
      * apply sum_of_zero; assumption.
      * rewrite sum_of_zero by assumption. exact K.
    + simpl. rewrite sum_of_zero by assumption. exact K.
  - apply everywhere_Or in W. destruct W as [Wn W].
    fold (mv_errors (map mandatory_values vs)) (mv_mandatory (map mandatory_values vs)).
    destruct (existsb _ (map mandatory_values vs)) eqn:E.
    + simpl. apply any_of_iff. apply existsb_exists in E. destruct E as (r & Hin & Hr).
      apply in_map_iff in Hin. destruct Hin as (v & <- & Hv).
      apply Exists_exists. exists v. split; [assumption|].
      rewrite Forall_forall in H, W. specialize (H v Hv (W v Hv)).
      destruct (mandatory_values v) as [|[|]]; try discriminate. exact H.
    + assert (K : Forall (fun v => ~ lang v bzero) vs).
      { apply Forall_forall. intros v Hv. rewrite Forall_forall in H, W.
        specialize (H v Hv (W v Hv)).
        assert (Hne : match mandatory_values v with inr [] => true | _ => false end = false).
        { destruct (match mandatory_values v with inr [] => true | _ => false end) eqn:F; [|reflexivity].
          assert (existsb (fun r : list derr + list nat =>
               match r with inr [] => true | _ => false end) (map mandatory_values vs) = true)
            by (apply existsb_exists; exists (mandatory_values v); split; [apply in_map; assumption|assumption]).
          congruence. }
        unfold mv_ok in H. destruct (mandatory_values v) as [[|]|[|]]; try discriminate; try contradiction; exact H. }
      assert (NL : ~ any_of (map lang vs) bzero).
      { rewrite any_of_iff. intro X. apply Exists_exists in X. destruct X as (v & Hv & X).
        rewrite Forall_forall in K. exact (K v Hv X). }
      destruct (mv_mandatory (map mandatory_values vs)) eqn:E2.
      * simpl. destruct vs as [|v vs]; [simpl in Wn; contradiction|].
        destruct (mv_errors (map mandatory_values (v :: vs))) eqn:E1; [|exact NL].
        simpl in E1, E2, E. apply app_eq_nil in E1. apply app_eq_nil in E2.
        inversion H; subst. inversion W; subst. specialize (H2 H4).
        destruct (mandatory_values v) as [es|ms]; destruct E1 as [E1 _]; destruct E2 as [E2 _];
          subst; simpl in H2; [contradiction|discriminate].
      * exact NL.
  - simpl. exists 0. simpl. apply beq_refl.
  - simpl in W. destruct W as [_ W]. specialize (IHe W).
    assert (K : lang (Plus e) bzero <-> lang e bzero).
    { simpl. split.
      - intros ([|k] & L & X); [lia|]. eapply pow_zero_out; [apply lang_ext|exact X].
      - intro X. exists 1. split; [lia|]. apply pow_zero_in; [apply lang_ext|exact X]. }
    unfold mv_ok in *. destruct (mandatory_values e) as [[|]|[|]]; rewrite ?K; assumption.
  - simpl in W. destruct W as [Wn W]. specialize (IHe W).
    destruct (Nat.eqb_spec (cmin c) 0) as [E|E].
    + simpl. exists 0. split; [|simpl; apply beq_refl].
      split; [lia|destruct (cmax c); simpl; lia].
    + assert (K : lang (Repeat e c) bzero <-> lang e bzero).
      { simpl. split.
        - intros ([|k] & [L1 L2] & X); [lia|]. eapply pow_zero_out; [apply lang_ext|exact X].
        - intro X. exists (cmin c). split; [split; [lia|exact Wn]|].
          apply pow_zero_in; [apply lang_ext|exact X]. }
      unfold mv_ok in *. destruct (mandatory_values e) as [[|]|[|]]; rewrite ?K; assumption.
Qed.

Lemma is_nullable_spec e : wf e -> (is_nullable e = true <-> lang e bzero).
Proof.
  intro W. pose proof (mandatory_values_ok e W) as K. unfold is_nullable, mv_ok in *.
  destruct (mandatory_values e) as [[|]|[|]]; split; intro X; try discriminate; try contradiction; auto.
Qed.

(** ** Smart constructors *)

Lemma lang_mk_and v1 v2 b :
  lang (mk_and v1 v2) b <-> exists b1 b2, beq b (bsum b1 b2) /\ lang v1 b1 /\ lang v2 b2.
Proof.
  assert (HE1 : forall v, lang v b <-> exists b1 b2, beq b (bsum b1 b2) /\ lang Empty b1 /\ lang v b2).
  { intro v. split.
    - intro H. exists bzero, b. repeat split; auto.
    - intros (b1 & b2 & E & H1 & H2). eapply lang_ext; [|exact H2].
      intro a. rewrite E. unfold bsum. rewrite (H1 a). reflexivity. }
  assert (HE2 : forall v, lang v b <-> exists b1 b2, beq b (bsum b1 b2) /\ lang v b1 /\ lang Empty b2).
  { intro v. split.
    - intro H. exists b, bzero. repeat split; auto. intro a; unfold bsum, bzero; lia.
    - intros (b1 & b2 & E & H1 & H2). eapply lang_ext; [|exact H1].
      intro a. rewrite E. unfold bsum. rewrite (H2 a). unfold bzero; lia. }
  assert (HF1 : forall er v, lang (Fail er) b <-> exists b1 b2, beq b (bsum b1 b2) /\ lang (Fail er) b1 /\ lang v b2).
  { intros; simpl; firstorder. }
  assert (HF2 : forall er v, lang (Fail er) b <-> exists b1 b2, beq b (bsum b1 b2) /\ lang v b1 /\ lang (Fail er) b2).
  { intros; simpl; firstorder. }
  assert (HA : forall v w, lang (And [v; w]) b <-> exists b1 b2, beq b (bsum b1 b2) /\ lang v b1 /\ lang w b2).
  { intros v w. simpl. split.
    - intros (b1 & b2 & E & H1 & (b3 & b4 & E' & H3 & H4)). exists b1, b2. repeat split; auto.
      eapply lang_ext; [|exact H3]. intro a. rewrite E'. unfold bsum. rewrite (H4 a). unfold bzero; lia.
    - intros (b1 & b2 & E & H1 & H2). exists b1, b2. repeat split; auto.
      exists b2, bzero. repeat split; auto. intro a; unfold bsum, bzero; lia. }
  destruct v1, v2; simpl mk_and; auto.
Qed.

Lemma max_eqb_eq a b : max_eqb a b = true <-> a = b.
Proof.
  destruct a, b; simpl; split; intro H; try discriminate; try reflexivity.
  - apply Nat.eqb_eq in H; congruence.
  - injection H as ->; apply Nat.eqb_refl.
Qed.
Lemma card_eqb_eq a b : card_eqb a b = true -> a = b.
Proof.
  destruct a, b; unfold card_eqb; simpl. intro H. apply andb_true_iff in H. destruct H as [H1 H2].
  apply Nat.eqb_eq in H1. apply max_eqb_eq in H2. congruence.
Qed.

Lemma rbe_eqb_eq e : forall f, rbe_eqb e f = true -> e = f.
Proof.
  induction e using rbe_ind'; intros f E; destruct f; simpl in E; try discriminate.
  - reflexivity.
  - apply andb_true_iff in E. destruct E as [E1 E2]. apply Nat.eqb_eq in E1. apply card_eqb_eq in E2. congruence.
  - f_equal. revert vs0 E. induction H as [|v vs Hv Hvs IH]; intros [|w ws] E; try discriminate; [reflexivity|].
    apply andb_true_iff in E. destruct E as [E1 E2]. f_equal; auto.
  - f_equal. revert vs0 E. induction H as [|v vs Hv Hvs IH]; intros [|w ws] E; try discriminate; [reflexivity|].
    apply andb_true_iff in E. destruct E as [E1 E2]. f_equal; auto.
  - f_equal; auto.
  - f_equal; auto.
  - apply andb_true_iff in E. destruct E as [E1 E2]. apply card_eqb_eq in E2. f_equal; auto.
Qed.

Lemma mk_or_cases v1 v2 :
  (is_fail v1 = true /\ mk_or v1 v2 = v2) \/ (is_fail v2 = true /\ mk_or v1 v2 = v1) \/
  (v1 = v2 /\ mk_or v1 v2 = v1) \/ (is_fail v1 = false /\ is_fail v2 = false /\ mk_or v1 v2 = Or [v1; v2]).
Proof.
  destruct (is_fail v1) eqn:F1.
  { left. destruct v1; try discriminate. auto. }
  destruct (is_fail v2) eqn:F2.
  { right; left. split; [reflexivity|]. destruct v2; try discriminate. destruct v1; try discriminate; reflexivity. }
  destruct (rbe_eqb v1 v2) eqn:E.
  - right; right; left. split; [apply rbe_eqb_eq; assumption|].
    destruct v1, v2; try discriminate; unfold mk_or; rewrite ?E; reflexivity.
  - right; right; right. repeat split; auto.
    destruct v1, v2; try discriminate; unfold mk_or; rewrite ?E; reflexivity.
Qed.

Lemma lang_is_fail v b : is_fail v = true -> ~ lang v b.
Proof. destruct v; simpl; try discriminate; tauto. Qed.

Lemma lang_mk_or v1 v2 b : lang (mk_or v1 v2) b <-> lang v1 b \/ lang v2 b.
Proof.
  destruct (mk_or_cases v1 v2) as [[F ->]|[[F ->]|[[-> ->]|[_ [_ ->]]]]].
  - pose proof (lang_is_fail v1 b F). tauto.
  - pose proof (lang_is_fail v2 b F). tauto.
  - tauto.
  - simpl. tauto.
Qed.

Lemma lang_mk_or_values vs b : lang (mk_or_values vs) b <-> Exists (fun v => lang v b) vs.
Proof.
  unfold mk_or_values.
  assert (K : forall acc, lang (fold_left mk_or vs acc) b <-> lang acc b \/ Exists (fun v => lang v b) vs).
  { induction vs as [|v vs IH]; simpl; intro acc.
    - split; [tauto|]. intros [K|K]; [assumption|inversion K].
    - rewrite IH, lang_mk_or. rewrite Exists_cons. tauto. }
  rewrite K. simpl. tauto.
Qed.

Lemma lang_or_of_variants vss b :
  lang (or_of_variants vss) b <-> Exists (fun vs => lang (And vs) b) vss.
Proof.
  destruct vss as [|v [|w vss]].
  - simpl. split; [tauto|intro K; inversion K].
  - simpl. split; [intro K; left; exact K|]. intro K. inversion K; subst; [assumption|inversion H0].
  - unfold or_of_variants. change (lang (Or (map And (v :: w :: vss))) b) with
      (any_of (map lang (map And (v :: w :: vss))) b).
    rewrite any_of_iff, Exists_map. tauto.
Qed.

Lemma deriv_n_lang d vs b :
  Exists (fun ws => lang (And ws) b) (deriv_n d vs) <->
  exists l v r y, vs = l ++ v :: r /\ d v = Some y /\ lang (And (l ++ y :: r)) b.
Proof.
  assert (K : forall ws, In ws (deriv_n d vs) <->
             exists l v r y, vs = l ++ v :: r /\ d v = Some y /\ ws = l ++ y :: r).
  { induction vs as [|v vs IH]; simpl; intro ws.
    - split; [tauto|]. intros (l & v & r & y & E & _). destruct l; discriminate.
    - split.
      + assert (R : In ws (map (cons v) (deriv_n d vs)) ->
                exists l v0 r y, v :: vs = l ++ v0 :: r /\ d v0 = Some y /\ ws = l ++ y :: r).
        { intro H. apply in_map_iff in H. destruct H as (u & <- & Hu). apply IH in Hu.
          destruct Hu as (l & v0 & r & y & -> & Hd & ->). exists (v :: l), v0, r, y. auto. }
        destruct (d v) as [y|] eqn:E; [|exact R].
        intros [<-|H]; [|exact (R H)]. exists [], v, vs, y. auto.
      + intros (l & v0 & r & y & E & Hd & ->).
        destruct l as [|a l]; simpl in E; injection E as -> ->.
        * rewrite Hd. left. reflexivity.
        * assert (In (a :: l ++ y :: r) (map (cons a) (deriv_n d (l ++ v0 :: r)))).
          { apply in_map. apply IH. exists l, v0, r, y. auto. }
          destruct (d a); [right|]; assumption. }
  rewrite Exists_exists. split.
  - intros (ws & Hin & Hl). apply K in Hin. destruct Hin as (l & v & r & y & -> & Hd & ->).
    exists l, v, r, y. auto.
  - intros (l & v & r & y & -> & Hd & Hl). exists (l ++ y :: r). split; [|exact Hl].
    apply K. exists l, v, r, y. auto.
Qed.

Lemma sum_of_app l r b :
  sum_of (l ++ r) b <-> exists b1 b2, beq b (bsum b1 b2) /\ sum_of l b1 /\ sum_of r b2.
Proof.
  revert b. induction l as [|P l IH]; simpl; intro b.
  - split.
    + intro H. exists bzero, b. repeat split; auto.
    + intros (b1 & b2 & E & H1 & H2). eapply sum_of_ext; [|exact H2].
      intro a. rewrite E. unfold bsum. rewrite (H1 a). reflexivity.
  - split.
    + intros (b1 & b2 & E & H1 & H2). apply IH in H2. destruct H2 as (c1 & c2 & E' & K1 & K2).
      exists (bsum b1 c1), c2. repeat split; auto.
      * intro a. rewrite E. unfold bsum. rewrite (E' a). unfold bsum. lia.
      * exists b1, c1. repeat split; auto.
    + intros (b1 & b2 & E & (c1 & c2 & E' & K1 & K2) & H2).
      exists c1, (bsum c2 b2). repeat split; auto.
      * intro a. rewrite E. unfold bsum. rewrite (E' a). unfold bsum. lia.
      * apply IH. exists c2, b2. repeat split; auto.
Qed.

Lemma sum_of_deriv Ps x b : Forall ext Ps ->
  (sum_of Ps (bsum (bone x) b) <->
   exists l P r, Ps = l ++ P :: r /\ sum_of (l ++ (fun c => P (bsum (bone x) c)) :: r) b).
Proof.
  intro HE. split.
  - revert b. induction HE as [|P Ps HP HPs IH]; simpl; intros b H.
    + specialize (H x). unfold bsum in H. rewrite bone_same in H. unfold bzero in H. lia.
    + destruct H as (c1 & c2 & E & H1 & H2).
      destruct (Nat.eq_dec (c1 x) 0) as [Z|Z].
      * assert (Hc2 : c2 x > 0).
        { specialize (E x). unfold bsum in E. rewrite bone_same in E. lia. }
        pose proof (bminus_spec c2 x Hc2) as E2.
        eapply sum_of_ext in H2; [|exact E2].
        apply IH in H2. destruct H2 as (l & Q & r & -> & K).
        exists (P :: l), Q, r. split; [reflexivity|]. simpl.
        exists c1, (bminus c2 x). repeat split; auto.
        intro a. specialize (E a). specialize (E2 a). unfold bsum in *. lia.
      * pose proof (bminus_spec c1 x ltac:(lia)) as E1.
        exists [], P, Ps. split; [reflexivity|]. simpl.
        exists (bminus c1 x), c2. repeat split; auto.
        -- intro a. specialize (E a). specialize (E1 a). unfold bsum in *. lia.
        -- exact (HP _ _ E1 H1).
  - intros (l & P & r & -> & H). apply sum_of_app in H. apply sum_of_app.
    destruct H as (b1 & b2 & E & H1 & (c1 & c2 & E' & K1 & K2)).
    exists b1, (bsum (bone x) b2). repeat split; auto.
    + intro a. specialize (E a). unfold bsum in *. lia.
    + exists (bsum (bone x) c1), c2. repeat split; auto.
      intro a. specialize (E' a). unfold bsum in *. lia.
Qed.

Lemma sum_of_replace l (P Q : mbag -> Prop) r b :
  (forall c, P c -> Q c) -> sum_of (l ++ P :: r) b -> sum_of (l ++ Q :: r) b.
Proof.
  intros H. rewrite !sum_of_app. intros (b1 & b2 & E & H1 & (c1 & c2 & E' & K1 & K2)).
  exists b1, b2. repeat split; auto. exists c1, c2. repeat split; auto.
Qed.

(** ** Cardinalities *)

Lemma bigger_spec n m : bigger n m = false <-> le_max n m.
Proof.
  destruct m; simpl; [tauto|]. rewrite Nat.ltb_ge. tauto.
Qed.

Lemma is_0_0_spec c : is_0_0 c = true <-> cmin c = 0 /\ cmax c = IntMax 0.
Proof. unfold is_0_0. rewrite andb_true_iff, Nat.eqb_eq, max_eqb_eq. tauto. Qed.
Lemma is_1_1_spec c : is_1_1 c = true <-> cmin c = 1 /\ cmax c = IntMax 1.
Proof. unfold is_1_1. rewrite andb_true_iff, Nat.eqb_eq, max_eqb_eq. tauto. Qed.

Lemma max_minus_spec m n k : le_max n m -> (le_max k (max_minus m n) <-> le_max (n + k) m).
Proof.
  destruct m as [|[|m]]; cbn [le_max max_minus]; intro H; [tauto|lia|].
  destruct (Nat.ltb_spec n (S m)); lia.
Qed.

Lemma in_card_minus c k : cmax c <> IntMax 0 -> (in_card k (card_minus c 1) <-> in_card (S k) c).
Proof.
  intro H. unfold in_card, card_minus. simpl cmin. simpl cmax.
  assert (L : le_max 1 (cmax c)).
  { destruct (cmax c) as [|[|]]; simpl; [exact I|congruence|lia]. }
  rewrite (max_minus_spec _ _ k L). cbn [Nat.add].
  split; intros [H1 H2]; split; auto; lia.
Qed.

Lemma card_minus_le c : le_max (cmin c) (cmax c) -> le_max (cmin (card_minus c 1)) (cmax (card_minus c 1)).
Proof.
  unfold card_minus; cbn [cmin cmax]. destruct (cmax c) as [|[|m]]; cbn [le_max max_minus]; [tauto|lia|].
  destruct (Nat.ltb_spec 1 (S m)); lia.
Qed.

Lemma in_card_exists c : le_max (cmin c) (cmax c) -> in_card (cmin c) c.
Proof. split; auto. Qed.

Lemma pow_Empty k b : pow (lang Empty) k b <-> beq b bzero.
Proof.
  revert b. induction k; simpl; intro b; [tauto|]. split.
  - intros (b1 & b2 & E & H1 & H2). apply IHk in H2. intro a. rewrite E. unfold bsum.
    rewrite (H1 a), (H2 a). reflexivity.
  - intro H. exists bzero, bzero. split; [|split].
    + intro a. rewrite (H a). reflexivity.
    + apply beq_refl.
    + apply IHk. apply beq_refl.
Qed.

Lemma lang_mk_range e c b : is_fail e = false ->
  (lang (mk_range e c) b <-> exists k, in_card k c /\ pow (lang e) k b).
Proof.
  intro NF. unfold mk_range.
  destruct (bigger (cmin c) (cmax c)) eqn:B.
  { simpl. split; [tauto|]. intros (k & [H1 H2] & _).
    destruct (cmax c) as [|m] eqn:Em; simpl in *; [discriminate|].
    apply Nat.ltb_lt in B. lia. }
  apply bigger_spec in B.
  destruct (is_0_0 c) eqn:Z.
  { apply is_0_0_spec in Z. destruct Z as [Z1 Z2]. unfold in_card. rewrite Z1, Z2. simpl. split.
    - intro H. exists 0. split; [lia|exact H].
    - intros (k & [H1 H2] & H). assert (k = 0) by lia. subst. exact H. }
  destruct (is_1_1 c) eqn:O.
  { apply is_1_1_spec in O. destruct O as [O1 O2]. unfold in_card. rewrite O1, O2. split.
    - intro H. exists 1. split; [simpl; lia|]. apply pow_1; [apply lang_ext|exact H].
    - intros (k & [H1 H2] & H). simpl in H2. assert (k = 1) by lia. subst.
      exact (proj1 (pow_1 _ b (lang_ext e)) H). }
  destruct e; try discriminate; try (simpl lang; tauto).
  split.
  - intro H. exists (cmin c). split; [split; [lia|exact B]|]. apply pow_Empty. exact H.
  - intros (k & _ & H). apply pow_Empty in H. exact H.
Qed.

(** ** The derivative of a symbol of the expression *)

Definition okn (e : rbe) : Prop := wf_node e /\ no00_node e.
Definition ok (e : rbe) : Prop := everywhere okn e.

Lemma everywhere_and P Q e : everywhere P e -> everywhere Q e -> everywhere (fun e => P e /\ Q e) e.
Proof.
  induction e using rbe_ind'; intros HP HQ.
  1-3: simpl in *; tauto.
  - apply everywhere_And in HP. apply everywhere_And in HQ. apply everywhere_And.
    split; [tauto|]. destruct HP as [_ HP], HQ as [_ HQ].
    rewrite Forall_forall in *. auto.
  - apply everywhere_Or in HP. apply everywhere_Or in HQ. apply everywhere_Or.
    split; [tauto|]. destruct HP as [_ HP], HQ as [_ HQ].
    rewrite Forall_forall in *. auto.
  - simpl in *. tauto.
  - simpl in *. tauto.
  - simpl in *. tauto.
Qed.
Lemma everywhere_impl (P Q : rbe -> Prop) e :
  (forall e, P e -> Q e) -> everywhere P e -> everywhere Q e.
Proof.
  intro HPQ. induction e using rbe_ind'; intro HP.
  1-3: simpl in *; intuition.
  - apply everywhere_And in HP. apply everywhere_And. destruct HP as [HP1 HP].
    split; [auto|]. rewrite Forall_forall in *. auto.
  - apply everywhere_Or in HP. apply everywhere_Or. destruct HP as [HP1 HP].
    split; [auto|]. rewrite Forall_forall in *. auto.
  - simpl in *. intuition.
  - simpl in *. intuition.
  - simpl in *. intuition.
Qed.

Lemma ok_intro e : wf e -> no00 e -> ok e.
Proof. intros; apply everywhere_and; assumption. Qed.
Lemma ok_wf e : ok e -> wf e.
Proof. apply everywhere_impl. unfold okn; tauto. Qed.

Lemma ok_mk_and v1 v2 : ok v1 -> ok v2 -> ok (mk_and v1 v2).
Proof.
  intros H1 H2.
  assert (ok (And [v1; v2])).
  { apply everywhere_And. split; [split; exact I|]. repeat constructor; assumption. }
  destruct v1, v2; simpl mk_and; assumption.
Qed.

Lemma ok_mk_or v1 v2 : ok v1 -> ok v2 -> ok (mk_or v1 v2).
Proof.
  intros H1 H2. destruct (mk_or_cases v1 v2) as [[F ->]|[[F ->]|[[-> ->]|[_ [_ ->]]]]]; try assumption.
  apply everywhere_Or. split; [split; exact I|]. repeat constructor; assumption.
Qed.

Lemma ok_Fail e : ok (Fail e).
Proof. repeat split. Qed.

Lemma ok_mk_or_values vs : Forall ok vs -> ok (mk_or_values vs).
Proof.
  unfold mk_or_values.
  assert (K : forall acc, ok acc -> Forall ok vs -> ok (fold_left mk_or vs acc)).
  { induction vs as [|v vs IH]; simpl; intros acc Ha Hv; [assumption|].
    inversion Hv; subst. apply IH; [apply ok_mk_or|]; assumption. }
  intro H. apply K; [apply ok_Fail|exact H].
Qed.

Lemma ok_mk_range e c : ok e -> ok (mk_range e c).
Proof.
  intro H. unfold mk_range.
  destruct (bigger (cmin c) (cmax c)) eqn:B; [apply ok_Fail|].
  destruct (is_0_0 c) eqn:Z; [repeat split|].
  destruct (is_1_1 c) eqn:O; [assumption|].
  assert (ok (Repeat e c)).
  { simpl. split; [|exact H]. split; simpl.
    - apply bigger_spec. exact B.
    - intro X. rewrite X in B. simpl in B. apply Nat.ltb_ge in B.
      assert (is_0_0 c = true) by (apply is_0_0_spec; split; [lia|assumption]). congruence. }
  destruct e; assumption.
Qed.

Lemma ok_or_of_variants vss : Forall (Forall ok) vss -> ok (or_of_variants vss).
Proof.
  destruct vss as [|v [|w vss]]; intro H.
  - apply ok_Fail.
  - inversion H; subst. apply everywhere_And. split; [split; exact I|assumption].
  - unfold or_of_variants. apply everywhere_Or. split; [split; exact I|].
    apply Forall_map. eapply Forall_impl; [|exact H]. intros vs Hvs.
    apply everywhere_And. split; [split; exact I|assumption].
Qed.

Lemma deriv_n_In {T} (d : T -> option T) vs ws :
  In ws (deriv_n d vs) ->
  exists l v r y, vs = l ++ v :: r /\ d v = Some y /\ ws = l ++ y :: r.
Proof.
  revert ws. induction vs as [|v vs IH]; simpl; intros ws; [tauto|].
  assert (R : In ws (map (cons v) (deriv_n d vs)) ->
                exists l v0 r y, v :: vs = l ++ v0 :: r /\ d v0 = Some y /\ ws = l ++ y :: r).
  { intro H. apply in_map_iff in H. destruct H as (u & <- & Hu). apply IH in Hu.
    destruct Hu as (l & v0 & r & y & -> & Hd & ->). exists (v :: l), v0, r, y. auto. }
  destruct (d v) as [y|] eqn:E; [|exact R].
  intros [<-|H]; [|exact (R H)]. exists [], v, vs, y. auto.
Qed.

Lemma not_fail_Some d y : not_fail d = Some y -> y = d /\ is_fail d = false.
Proof. destruct d; simpl; intro H; try discriminate; injection H as <-; auto. Qed.

Lemma ok_deriv e x n op C : ok e -> ok (deriv e x n op C).
Proof.
  unfold ok. induction e using rbe_ind'; intro W; simpl deriv.
  - exact W.
  - destruct (op && negb (mem x C)); [exact W|apply ok_Fail].
  - destruct (x =? v).
    + destruct (max_eqb (cmax c) (IntMax 0)); [apply ok_Fail|].
      destruct (max_ge (cmax c) n); [|apply ok_Fail].
      unfold mk_range_symbol. destruct (bigger _ _); [apply ok_Fail|repeat split].
    + destruct (op && negb (mem x C)); [exact W|apply ok_Fail].
  - apply everywhere_And in W. destruct W as [_ W].
    apply ok_or_of_variants. apply Forall_forall. intros ws Hws.
    apply deriv_n_In in Hws. destruct Hws as (l & v & r & y & -> & Hd & ->).
    apply not_fail_Some in Hd. destruct Hd as [-> _].
    rewrite Forall_forall in *. intros u Hu. apply in_app_iff in Hu. simpl in Hu.
    destruct Hu as [Hu|[<-|Hu]].
    + apply W. apply in_app_iff; auto.
    + apply H; [|apply W]; apply in_app_iff; simpl; auto.
    + apply W. apply in_app_iff; simpl; auto.
  - apply everywhere_Or in W. destruct W as [_ W]. apply ok_mk_or_values.
    apply Forall_map. unfold ok. rewrite Forall_forall in *. auto.
  - destruct (op && negb (mem x C)); [exact W|].
    apply ok_mk_and; [|exact W]. apply IHe. simpl in W. tauto.
  - apply ok_mk_and; [apply IHe; simpl in W; tauto|]. unfold ok, okn in *. simpl in *. tauto.
  - destruct (is_0_0 c) eqn:Z.
    + destruct (is_nullable _); [apply ok_Fail|repeat split].
    + apply ok_mk_and; [apply IHe; simpl in W; tauto|]. apply ok_mk_range. simpl in W. apply W.
Qed.

Lemma deriv_Fail e x n op C : is_fail e = true -> is_fail (deriv e x n op C) = true.
Proof. destruct e; simpl; try discriminate; auto. Qed.

Lemma deriv_own e x op C : ok e -> op && negb (mem x C) = false ->
  forall b, lang (deriv e x 1 op C) b <-> lang e (bsum (bone x) b).
Proof.
  intros W HX. revert W. unfold ok. induction e using rbe_ind'; intros W b; simpl deriv.
  - simpl. tauto.
  - rewrite HX. simpl. split; [tauto|]. intro K. specialize (K x).
    unfold bsum in K. rewrite bone_same in K. unfold bzero in K. lia.
  - rewrite HX. destruct (Nat.eqb_spec x v) as [->|Hn].
    + destruct (max_eqb (cmax c) (IntMax 0)) eqn:Z.
      { apply max_eqb_eq in Z. simpl. split; [tauto|]. intros [_ [_ K]]. rewrite Z in K. simpl in K.
        unfold bsum in K. rewrite bone_same in K. lia. }
      assert (Z' : cmax c <> IntMax 0) by (rewrite <- max_eqb_eq; congruence).
      assert (G : max_ge (cmax c) 1 = true).
      { destruct (cmax c) as [|[|]]; simpl; try reflexivity. congruence. }
      rewrite G. unfold mk_range_symbol.
      destruct (bigger (cmin (card_minus c 1)) (cmax (card_minus c 1))) eqn:B.
      * simpl. split; [tauto|]. intros [_ K]. unfold bsum in K. rewrite bone_same in K.
        apply (in_card_minus c (b v) Z') in K. destruct K as [K1 K2].
        destruct (cmax (card_minus c 1)); simpl in *; [discriminate|]. apply Nat.ltb_lt in B. lia.
      * simpl. rewrite in_card_minus by assumption. unfold bsum. rewrite bone_same. simpl.
        split; intros [K1 K2]; split; auto; intros a Ha; specialize (K1 a Ha).
        -- rewrite bone_other by congruence. exact K1.
        -- rewrite bone_other in K1 by congruence. exact K1.
    + simpl. split; [tauto|]. intros [K _]. specialize (K x Hn).
      unfold bsum in K. rewrite bone_same in K. lia.
  - apply everywhere_And in W. destruct W as [_ W].
    rewrite lang_or_of_variants, deriv_n_lang. simpl lang.
    rewrite sum_of_deriv; [|apply Forall_map, Forall_forall; intros; apply lang_ext].
    rewrite Forall_forall in *.
    split.
    + intros (l & v & r & y & -> & Hd & K). apply not_fail_Some in Hd. destruct Hd as [-> _].
      exists (map lang l), (lang v), (map lang r). rewrite map_app. split; [reflexivity|].
      rewrite map_app in K. simpl in K. eapply sum_of_replace; [|exact K].
      intros c Hc. simpl in Hc. apply H in Hc; [exact Hc| |apply W]; apply in_app_iff; simpl; auto.
    + intros (l & P & r & E & K).
      apply map_eq_app in E. destruct E as (l' & r' & -> & <- & E).
      destruct r' as [|v r']; [discriminate|]. simpl in E. injection E as <- <-.
      destruct (is_fail (deriv v x 1 op C)) eqn:F.
      { exfalso. apply sum_of_app in K. destruct K as (b1 & b2 & _ & _ & (c1 & c2 & _ & K1 & _)).
        apply H in K1; [|apply in_app_iff; simpl; auto|apply W, in_app_iff; simpl; auto].
        eapply lang_is_fail; eauto. }
      exists l', v, r', (deriv v x 1 op C). split; [reflexivity|]. split.
      { destruct (deriv v x 1 op C); try discriminate; reflexivity. }
      rewrite map_app. simpl. eapply sum_of_replace; [|exact K].
      intros c Hc. apply H; [| |exact Hc]; [|apply W]; apply in_app_iff; simpl; auto.
  - apply everywhere_Or in W. destruct W as [_ W].
    rewrite lang_mk_or_values, Exists_map. simpl lang. rewrite any_of_iff.
    rewrite Forall_forall in *. rewrite !Exists_exists.
    split; intros (v & Hv & K); exists v; split; auto; apply H; auto.
  - rewrite HX. rewrite lang_mk_and. simpl in W. destruct W as [_ W]. simpl lang. split.
    + intros (b1 & b2 & E & H1 & (k & H2)). exists (S k).
      apply (pow_deriv _ x (S k) b (lang_ext e)). exists k, b1, b2. repeat split; auto.
      apply IHe; assumption.
    + intros (k & K). apply (pow_deriv _ x k b (lang_ext e)) in K.
      destruct K as (k' & b1 & b2 & -> & E & H1 & H2). exists b1, b2. repeat split; eauto.
      apply IHe; assumption.
  - rewrite lang_mk_and. simpl in W. destruct W as [_ W]. simpl lang. split.
    + intros (b1 & b2 & E & H1 & (k & H2)). exists (S k). split; [lia|].
      apply (pow_deriv _ x (S k) b (lang_ext e)). exists k, b1, b2. repeat split; auto.
      apply IHe; assumption.
    + intros (k & L & K). apply (pow_deriv _ x k b (lang_ext e)) in K.
      destruct K as (k' & b1 & b2 & -> & E & H1 & H2). exists b1, b2. repeat split; eauto.
      apply IHe; assumption.
  - simpl in W. destruct W as [[Wn Z] W]. simpl in Wn, Z.
    assert (is_0_0 c = false).
    { destruct (is_0_0 c) eqn:Q; [|reflexivity]. apply is_0_0_spec in Q. tauto. }
    rewrite H. rewrite lang_mk_and.
    destruct (is_fail e) eqn:F.
    { split.
      - intros (b1 & b2 & E & H1 & H2). apply IHe in H1; [|assumption].
        exfalso. eapply lang_is_fail; eauto.
      - simpl. intros (k & L & K). apply (pow_deriv _ x k b (lang_ext e)) in K.
        destruct K as (k' & b1 & b2 & -> & E & H1 & H2).
        exfalso. eapply lang_is_fail; eauto. }
    simpl lang. split.
    + intros (b1 & b2 & E & H1 & H2). apply lang_mk_range in H2; [|assumption].
      destruct H2 as (k & L & H2). exists (S k). split; [apply in_card_minus; assumption|].
      apply (pow_deriv _ x (S k) b (lang_ext e)). exists k, b1, b2. repeat split; auto.
      apply IHe; assumption.
    + intros (k & L & K). apply (pow_deriv _ x k b (lang_ext e)) in K.
      destruct K as (k' & b1 & b2 & -> & E & H1 & H2). exists b1, b2. repeat split; auto.
      { apply IHe; assumption. }
      apply lang_mk_range; [assumption|]. exists k'. split; [|exact H2].
      apply in_card_minus; assumption.
Qed.

(** ** Matching a whole bag *)

Lemma deriv_bag_Fail_stop e b op C : is_fail e = true -> is_fail (deriv_bag e b op C) = true.
Proof. destruct e; simpl; try discriminate. intros _. destruct b; reflexivity. Qed.

Lemma deriv_bag_cons e x b op C :
  deriv_bag e (x :: b) op C =
  (if is_fail (deriv e x 1 op C) then Fail DerivBagError else deriv_bag (deriv e x 1 op C) b op C).
Proof. simpl. destruct (deriv e x 1 op C); reflexivity. Qed.

Lemma match_of_deriv e b op : ok (deriv_bag e b op (symbols e)) ->
  (match_bag_deriv e b op = None <-> lang (deriv_bag e b op (symbols e)) bzero).
Proof.
  intro W. unfold match_bag_deriv.
  destruct (is_fail (deriv_bag e b op (symbols e))) eqn:F.
  { destruct (deriv_bag e b op (symbols e)); try discriminate. simpl. split; [discriminate|tauto]. }
  rewrite <- is_nullable_spec by (apply ok_wf; assumption).
  destruct (deriv_bag e b op (symbols e)); try discriminate;
  destruct (is_nullable _); split; intro; congruence.
Qed.

Lemma deriv_bag_closed b C : forall e, ok e ->
  ok (deriv_bag e b false C) /\
  (lang (deriv_bag e b false C) bzero <-> lang e (bag_of b)).
Proof.
  induction b as [|x b IH]; intros e W.
  - simpl deriv_bag. split; [exact W|]. tauto.
  - rewrite deriv_bag_cons.
    assert (K : lang (deriv e x 1 false C) (bag_of b) <-> lang e (bag_of (x :: b))).
    { rewrite deriv_own by (auto). split; apply lang_ext.
      - apply beq_sym, bag_of_cons.
      - apply bag_of_cons. }
    destruct (is_fail (deriv e x 1 false C)) eqn:F.
    + split; [apply ok_Fail|]. rewrite <- K. simpl. split; [tauto|].
      apply lang_is_fail; assumption.
    + specialize (IH (deriv e x 1 false C) (ok_deriv _ _ _ _ _ W)).
      destruct IH as [IH1 IH2]. split; [exact IH1|]. rewrite IH2. exact K.
Qed.

Theorem match_bag_deriv_closed e b : wf e -> no00 e ->
  (match_bag_deriv e b false = None <-> lang e (bag_of b)).
Proof.
  intros W Z. pose proof (deriv_bag_closed b (symbols e) e (ok_intro e W Z)) as [H1 H2].
  rewrite match_of_deriv by exact H1. exact H2.
Qed.

Lemma bag_of_perm b c : Permutation b c -> beq (bag_of b) (bag_of c).
Proof.
  intros H a. unfold bag_of. apply (Permutation_count_occ Nat.eq_dec). exact H.
Qed.

Theorem match_bag_deriv_perm e b c : wf e -> no00 e -> Permutation b c ->
  (match_bag_deriv e b false = None <-> match_bag_deriv e c false = None).
Proof.
  intros W Z H. rewrite !match_bag_deriv_closed by assumption.
  split; apply lang_ext; [|apply beq_sym]; apply bag_of_perm; exact H.
Qed.
