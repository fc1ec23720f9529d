(** Lemmas about the interval matcher. *)

Require Import List Arith Bool Lia Permutation.
Import ListNotations.
From Verif Require Import RbeModel RbeSpec RbeDeriv.

(** ** Intervals *)

Definition within (i : interval) (n : nat) : Prop := int_contains i n = true.

Lemma max_ge_spec m n : max_ge m n = true <-> le_max n m.
Proof. destruct m; simpl; [tauto|apply Nat.leb_le]. Qed.

Lemma within_spec i n :
  within i n <-> (exists l, lo i = IntMax l /\ l <= n) /\ le_max n (hi i).
Proof.
  unfold within, int_contains. rewrite andb_true_iff, max_ge_spec.
  destruct (lo i) as [|l].
  - split; [intros []; discriminate|]. intros ((l & E & _) & _). discriminate.
  - rewrite Nat.leb_le. split.
    + intros [H K]. split; [exists l; auto|exact K].
    + intros ((l' & E & H) & K). injection E as <-. auto.
Qed.

Lemma is_empty_spec i : int_is_empty i = true <-> forall n, ~ within i n.
Proof.
  unfold int_is_empty. destruct i as [l h]; simpl. destruct l as [|l].
  - split; [|reflexivity]. intros _ n H. apply within_spec in H. destruct H as [(l & E & _) _].
    discriminate.
  - destruct h as [|h]; simpl.
    + split; [discriminate|]. intro H. exfalso. apply (H l). apply within_spec. simpl. eauto.
    + rewrite Nat.ltb_lt. split.
      * intros H n K. apply within_spec in K. simpl in K. destruct K as [(l' & E & L) K].
        injection E as <-. lia.
      * intro H. destruct (Nat.lt_ge_cases h l) as [|G]; [assumption|].
        exfalso. apply (H l). apply within_spec. simpl. eauto.
Qed.

Lemma nonempty_spec i : int_is_empty i = false <-> exists n, within i n.
Proof.
  destruct i as [[|l] h]; unfold int_is_empty; simpl.
  - split; [discriminate|]. intros (n & H). apply within_spec in H. destruct H as [(l & E & _) _]. discriminate.
  - destruct h as [|h]; simpl.
    + split; [|reflexivity]. intros _. exists l. apply within_spec. simpl. eauto.
    + rewrite Nat.ltb_ge. split.
      * intro. exists l. apply within_spec. simpl. eauto.
      * intros (n & H). apply within_spec in H. simpl in H. destruct H as [(l' & E & L) H].
        injection E as <-. lia.
Qed.

Lemma within_inter a b n : within (int_inter a b) n <-> within a n /\ within b n.
Proof.
  rewrite !within_spec. unfold int_inter; simpl.
  destruct (lo a) as [|la], (lo b) as [|lb]; simpl.
  - split; [intros ((l & E & _) & _); discriminate|intros [[(l & E & _) _] _]; discriminate].
  - split; [intros ((l & E & _) & _); discriminate|intros [[(l & E & _) _] _]; discriminate].
  - split; [intros ((l & E & _) & _); discriminate|intros [_ [(l & E & _) _]]; discriminate].
  - assert (H : le_max n (max_min (hi a) (hi b)) <-> le_max n (hi a) /\ le_max n (hi b)).
    { destruct (hi a), (hi b); simpl; try tauto. lia. }
    rewrite H. split.
    + intros ((l & E & L) & K). injection E as <-. repeat split; try tauto; eexists; (split; [reflexivity|lia]).
    + intros ([(l & E & L) K] & [(l' & E' & L') K']). injection E as <-. injection E' as <-.
      split; [|tauto]. eexists; (split; [reflexivity|lia]).
Qed.

Lemma within_add a b n : int_is_empty a = false -> int_is_empty b = false ->
  (within (int_add a b) n <-> exists n1 n2, n = n1 + n2 /\ within a n1 /\ within b n2).
Proof.
  intros Ha Hb. apply nonempty_spec in Ha, Hb. destruct Ha as (na & Ha), Hb as (nb & Hb).
  rewrite !within_spec in *. unfold int_add; simpl.
  destruct Ha as [(la & Ea & La) Ha], Hb as [(lb & Eb & Lb) Hb]. rewrite Ea, Eb. simpl.
  split.
  - intros ((l & E & L) & K). injection E as <-.
    destruct (hi a) as [|ha] eqn:Eha.
    + exists (n - lb), lb. split; [lia|]. split; apply within_spec; rewrite ?Ea, ?Eb, ?Eha; simpl.
      * split; [|exact I]. exists la; split; [reflexivity|lia].
      * split; [exists lb; auto|]. destruct (hi b); simpl in *; [exact I|lia].
    + destruct (hi b) as [|hb] eqn:Ehb; simpl in *.
      * exists la, (n - la). split; [lia|]. split; apply within_spec; rewrite ?Ea, ?Eb, ?Eha, ?Ehb; simpl.
        -- split; [exists la; auto|lia].
        -- split; [|exact I]. exists lb; split; [reflexivity|lia].
      * exists (Nat.max la (n - hb)), (n - Nat.max la (n - hb)). split; [lia|].
        split; apply within_spec; rewrite ?Ea, ?Eb, ?Eha, ?Ehb; simpl.
        -- split; [exists la; split; [reflexivity|lia]|lia].
        -- split; [exists lb; split; [reflexivity|lia]|lia].
  - intros (n1 & n2 & -> & H1 & H2). rewrite within_spec in H1, H2. rewrite Ea in H1. rewrite Eb in H2.
    destruct H1 as [(l1 & E1 & L1) H1], H2 as [(l2 & E2 & L2) H2]. injection E1 as <-. injection E2 as <-.
    split; [exists (la + lb); split; [reflexivity|lia]|].
    destruct (hi a), (hi b); simpl in *; try exact I; lia.
Qed.

Lemma within_zero_any n : within zero_any n.
Proof. apply within_spec. simpl. split; [exists 0; split; [reflexivity|lia]|exact I]. Qed.
Lemma within_zero_zero n : within zero_zero n <-> n = 0.
Proof.
  rewrite within_spec. simpl. split; [intros [_ H]; lia|].
  intros ->. split; [exists 0; auto|lia].
Qed.
Lemma within_one_any n : within one_any n <-> 1 <= n.
Proof.
  rewrite within_spec. simpl. split.
  - intros [(l & E & L) _]. injection E as <-. exact L.
  - intro H. split; [exists 1; auto|exact I].
Qed.
Lemma within_fail n : ~ within int_fail n.
Proof. rewrite within_spec. simpl. intros [(l & E & L) H]. injection E as <-. lia. Qed.
Lemma within_1_1 n : within (mkInt (IntMax 1) (IntMax 1)) n <-> n = 1.
Proof.
  rewrite within_spec. simpl. split.
  - intros [(l & E & L) H]. injection E as <-. lia.
  - intros ->. split; [exists 1; auto|lia].
Qed.

(** ** Powers of sums and unions *)

Lemma pow_ext_iff P k b c : beq b c -> (pow P k b <-> pow P k c).
Proof. intro H. split; apply pow_ext; [exact H|apply beq_sym, H]. Qed.

Lemma pow_add P j1 j2 b1 b2 : pow P j1 b1 -> pow P j2 b2 -> pow P (j1 + j2) (bsum b1 b2).
Proof.
  revert b1. induction j1; simpl; intros b1 H1 H2.
  - eapply pow_ext; [|exact H2]. intro a. unfold bsum. rewrite (H1 a). reflexivity.
  - destruct H1 as (c1 & c2 & E & K1 & K2). exists c1, (bsum c2 b2). split; [|split; auto].
    intro a. unfold bsum. rewrite (E a). unfold bsum. lia.
Qed.

Lemma pow_union (P Q : mbag -> Prop) k b :
  pow (fun c => P c \/ Q c) k b <->
  exists k1 k2 b1 b2, k = k1 + k2 /\ beq b (bsum b1 b2) /\ pow P k1 b1 /\ pow Q k2 b2.
Proof.
  revert b. induction k; simpl; intro b.
  - split.
    + intro H. exists 0, 0, bzero, bzero. simpl. repeat split; auto.
    + intros (k1 & k2 & b1 & b2 & E & Eb & H1 & H2).
      assert (k1 = 0) by lia. assert (k2 = 0) by lia. subst. simpl in *.
      intro a. rewrite (Eb a). unfold bsum. rewrite (H1 a), (H2 a). reflexivity.
  - split.
    + intros (c1 & c2 & E & [H|H] & K); apply IHk in K;
        destruct K as (k1 & k2 & b1 & b2 & -> & Eb & H1 & H2).
      * exists (S k1), k2, (bsum c1 b1), b2. split; [reflexivity|]. split.
        -- intro a. rewrite (E a). unfold bsum. rewrite (Eb a). unfold bsum. lia.
        -- split; [|exact H2]. simpl. exists c1, b1. repeat split; auto.
      * exists k1, (S k2), b1, (bsum c1 b2). split; [lia|]. split.
        -- intro a. rewrite (E a). unfold bsum. rewrite (Eb a). unfold bsum. lia.
        -- split; [exact H1|]. simpl. exists c1, b2. repeat split; auto.
    + intros (k1 & k2 & b1 & b2 & E & Eb & H1 & H2).
      destruct k1 as [|k1].
      * destruct k2 as [|k2]; [lia|]. simpl in E. injection E as ->.
        simpl in H1, H2. destruct H2 as (d1 & d2 & Ed & K1 & K2).
        exists d1, d2. split; [|split; [right; exact K1|]].
        -- intro a. rewrite (Eb a). unfold bsum. rewrite (H1 a), (Ed a). reflexivity.
        -- apply IHk. exists 0, k2, bzero, d2. repeat split; auto.
      * simpl in E. injection E as ->. simpl in H1. destruct H1 as (d1 & d2 & Ed & K1 & K2).
        exists d1, (bsum d2 b2). split; [|split; [left; exact K1|]].
        -- intro a. rewrite (Eb a). unfold bsum. rewrite (Ed a). unfold bsum. lia.
        -- apply IHk. exists k1, k2, d2, b2. repeat split; auto.
Qed.

Lemma pow_prod (P Q : mbag -> Prop) k b :
  pow (fun c => exists c1 c2, beq c (bsum c1 c2) /\ P c1 /\ Q c2) k b <->
  exists b1 b2, beq b (bsum b1 b2) /\ pow P k b1 /\ pow Q k b2.
Proof.
  revert b. induction k; simpl; intro b.
  - split.
    + intro H. exists bzero, bzero. repeat split; auto.
    + intros (b1 & b2 & E & H1 & H2) a. rewrite (E a). unfold bsum. rewrite (H1 a), (H2 a). reflexivity.
  - split.
    + intros (c & d & E & (c1 & c2 & Ec & H1 & H2) & K). apply IHk in K.
      destruct K as (d1 & d2 & Ed & K1 & K2).
      exists (bsum c1 d1), (bsum c2 d2). split; [|split].
      * intro a. rewrite (E a). unfold bsum. rewrite (Ec a), (Ed a). unfold bsum. lia.
      * exists c1, d1. repeat split; auto.
      * exists c2, d2. repeat split; auto.
    + intros (b1 & b2 & E & (c1 & d1 & E1 & H1 & K1) & (c2 & d2 & E2 & H2 & K2)).
      exists (bsum c1 c2), (bsum d1 d2). split; [|split].
      * intro a. rewrite (E a). unfold bsum. rewrite (E1 a), (E2 a). unfold bsum. lia.
      * exists c1, c2. repeat split; auto.
      * apply IHk. exists d1, d2. repeat split; auto.
Qed.

Lemma pow_Star v i b : pow (lang (Star v)) (S i) b <-> exists j, pow (lang v) j b.
Proof.
  revert b. induction i; intro b.
  - rewrite pow_1 by apply lang_ext. simpl. tauto.
  - split.
    + intros (c & d & E & (j1 & H1) & H2). apply IHi in H2. destruct H2 as (j2 & H2).
      exists (j1 + j2). eapply pow_ext; [apply beq_sym, E|]. apply pow_add; assumption.
    + intro H. simpl pow at 1. exists b, bzero. split; [intro a; unfold bsum, bzero; lia|].
      split; [exact H|]. apply (IHi bzero). exists 0. apply beq_refl.
Qed.

Lemma pow_Plus v i b : pow (lang (Plus v)) (S i) b <-> exists j, S i <= j /\ pow (lang v) j b.
Proof.
  revert b. induction i; intro b.
  - rewrite pow_1 by apply lang_ext. simpl. tauto.
  - split.
    + intros (c & d & E & (j1 & L1 & H1) & H2). apply IHi in H2. destruct H2 as (j2 & L2 & H2).
      exists (j1 + j2). split; [lia|]. eapply pow_ext; [apply beq_sym, E|]. apply pow_add; assumption.
    + intros (j & L & H). destruct j as [|j]; [lia|]. simpl in H. destruct H as (c & d & E & H1 & H2).
      exists c, d. split; [exact E|]. split.
      * exists 1. split; [lia|]. apply pow_1; [apply lang_ext|exact H1].
      * apply IHi. exists j. split; [lia|exact H2].
Qed.

Definition mul_max (i : nat) (m : max) : max :=
  match m with
  | Unbounded => match i with 0 => IntMax 0 | _ => Unbounded end
  | IntMax k => IntMax (i * k)
  end.

Lemma pow_Symbol v c i b : (forall a, a <> v -> b a = 0) ->
  (pow (lang (Symbol v c)) i b <-> i * cmin c <= b v /\ le_max (b v) (mul_max i (cmax c))).
Proof.
  revert b. induction i; intros b S.
  - cbn [pow]. assert (le_max (b v) (mul_max 0 (cmax c)) <-> b v = 0).
    { destruct (cmax c); simpl; lia. }
    rewrite H. simpl. split.
    + intro K. rewrite (K v). unfold bzero. lia.
    + intros [_ K] a. destruct (Nat.eq_dec a v) as [->|N]; [exact K|apply S, N].
  - split.
    + intros (b1 & b2 & E & [S1 [H1 H2]] & H3).
      assert (S2 : forall a, a <> v -> b2 a = 0).
      { intros a N. specialize (E a). rewrite (S a N) in E. unfold bsum in E. lia. }
      apply IHi in H3; [|exact S2]. destruct H3 as [H3 H4]. rewrite (E v). unfold bsum.
      split; [simpl; lia|]. destruct (cmax c); [exact I|]. cbn [le_max mul_max] in *. simpl. lia.
    + intros [L H].
      assert (K : exists n0, cmin c <= n0 /\ le_max n0 (cmax c) /\ n0 <= b v /\
                  i * cmin c <= b v - n0 /\ le_max (b v - n0) (mul_max i (cmax c))).
      { destruct (cmax c) as [|m] eqn:Em; cbn [le_max mul_max] in *.
        - destruct i.
          + exists (b v). simpl in *. repeat split; lia.
          + exists (b v - Datatypes.S i * cmin c). cbn [Nat.mul] in *. repeat split; simpl; try lia.
        - exists (Nat.max (cmin c) (b v - i * m)).
          cbn [Nat.mul] in *. assert (cmin c <= m).
          { destruct (Nat.le_gt_cases (cmin c) m); [assumption|].
            assert (i * m <= i * cmin c) by (apply Nat.mul_le_mono_l; lia). lia. }
          assert (i * cmin c <= i * m) by (apply Nat.mul_le_mono_l; lia).
          repeat split; lia. }
      destruct K as (n0 & K1 & K2 & K3 & K4 & K5).
      exists (fun a => if a =? v then n0 else 0), (fun a => if a =? v then b v - n0 else 0).
      split; [|split].
      * intro a. unfold bsum. destruct (Nat.eqb_spec a v) as [->|N]; [lia|]. rewrite (S a N). reflexivity.
      * split; [|rewrite Nat.eqb_refl; split; assumption].
        intros a N. apply Nat.eqb_neq in N. rewrite N. reflexivity.
      * apply IHi.
        -- intros a N. apply Nat.eqb_neq in N. rewrite N. reflexivity.
        -- rewrite Nat.eqb_refl. split; assumption.
Qed.

(** ** Supports *)

Lemma mem_spec x l : mem x l = true <-> In x l.
Proof.
  unfold mem. rewrite existsb_exists. split.
  - intros (y & H & E). apply Nat.eqb_eq in E. congruence.
  - intro H. exists x. split; [exact H|apply Nat.eqb_refl].
Qed.
Lemma mem_false x l : mem x l = false <-> ~ In x l.
Proof. rewrite <- mem_spec. destruct (mem x l); intuition congruence. Qed.

Lemma symbols_occurs x e : In x (symbols e) <-> occurs x e.
Proof.
  induction e using rbe_ind'; simpl; try tauto.
  - split; [intros [->|[]]; reflexivity|intros ->; auto].
  - rewrite in_flat_map. induction H as [|v vs Hv Hvs IH]; simpl.
    + split; [intros (y & [] & _)|tauto].
    + rewrite <- Hv, <- IH. split.
      * intros (y & [<-|Hy] & Hx); eauto.
      * intros [Hx|(y & Hy & Hx)]; eauto.
  - rewrite in_flat_map. induction H as [|v vs Hv Hvs IH]; simpl.
    + split; [intros (y & [] & _)|tauto].
    + rewrite <- Hv, <- IH. split.
      * intros (y & [<-|Hy] & Hx); eauto.
      * intros [Hx|(y & Hy & Hx)]; eauto.
Qed.

Definition supp (P : mbag -> Prop) (l : list nat) := forall b a, P b -> ~ In a l -> b a = 0.

Lemma pow_supp P l k : supp P l -> supp (pow P k) l.
Proof.
  intro HP. induction k; simpl; intros b a H N.
  - apply H.
  - destruct H as (b1 & b2 & E & H1 & H2). rewrite (E a). unfold bsum.
    rewrite (HP _ _ H1 N), (IHk _ _ H2 N). reflexivity.
Qed.

Lemma lang_supp e : supp (lang e) (symbols e).
Proof.
  induction e using rbe_ind'; simpl; intros b a Hb N.
  - contradiction.
  - apply Hb.
  - apply Hb. intros ->. apply N. left; reflexivity.
  - revert b Hb. induction H as [|v vs Hv Hvs IH]; simpl in *; intros b Hb; [apply Hb|].
    destruct Hb as (b1 & b2 & E & H1 & H2). rewrite (E a). unfold bsum.
    rewrite in_app_iff in N.
    rewrite (Hv _ _ H1), (IH ltac:(tauto) _ H2); [reflexivity|]. tauto.
  - induction H as [|v vs Hv Hvs IH]; simpl in *; [contradiction|].
    rewrite in_app_iff in N. destruct Hb as [Hb|Hb]; [apply (Hv _ _ Hb)|apply IH]; tauto.
  - destruct Hb as (k & Hb). eapply pow_supp; eauto.
  - destruct Hb as (k & _ & Hb). eapply pow_supp; eauto.
  - destruct Hb as (k & _ & Hb). eapply pow_supp; eauto.
Qed.

(** the bag restricted to the symbols of an expression *)
Definition rb (l : list nat) (b : mbag) : mbag := fun a => if mem a l then b a else 0.

Lemma rb_in l b a : In a l -> rb l b a = b a.
Proof. intro H. unfold rb. apply mem_spec in H. rewrite H. reflexivity. Qed.
Lemma rb_out l b a : ~ In a l -> rb l b a = 0.
Proof. intro H. unfold rb. apply mem_false in H. rewrite H. reflexivity. Qed.

Lemma rb_split l r b : (forall x, In x l -> In x r -> False) ->
  beq (rb (l ++ r) b) (bsum (rb l b) (rb r b)).
Proof.
  intros D a. unfold bsum.
  destruct (mem a l) eqn:El, (mem a r) eqn:Er; unfold rb; rewrite El, Er;
    rewrite ?mem_spec, ?mem_false in *.
  - exfalso; eauto.
  - assert (In a (l ++ r)) by (apply in_app_iff; auto). apply mem_spec in H. rewrite H. lia.
  - assert (In a (l ++ r)) by (apply in_app_iff; auto). apply mem_spec in H. rewrite H. lia.
  - assert (~ In a (l ++ r)) by (rewrite in_app_iff; tauto). apply mem_false in H. rewrite H. lia.
Qed.

(** a split of a restricted bag along disjoint supports is the split of restrictions *)
Lemma rb_unsplit l r b b1 b2 : (forall x, In x l -> In x r -> False) ->
  beq (rb (l ++ r) b) (bsum b1 b2) ->
  (forall a, ~ In a l -> b1 a = 0) -> (forall a, ~ In a r -> b2 a = 0) ->
  beq b1 (rb l b) /\ beq b2 (rb r b).
Proof.
  intros D E S1 S2. split; intro a; specialize (E a); rewrite (rb_split _ _ _ D a) in E; unfold bsum in E.
  - destruct (in_dec Nat.eq_dec a l) as [H|H].
    + assert (N : ~ In a r) by eauto. rewrite (rb_out r b a N), (S2 a N) in E. lia.
    + rewrite (S1 a H), rb_out by exact H. reflexivity.
  - destruct (in_dec Nat.eq_dec a r) as [H|H].
    + assert (N : ~ In a l) by eauto. rewrite (rb_out l b a N), (S1 a N) in E. lia.
    + rewrite (S2 a H), rb_out by exact H. reflexivity.
Qed.

(** ** Exactness *)

(** the interval of [e] is exact at [i] *)
Definition exact_at (b : bag) (i : nat) (e : rbe) : Prop :=
  within (interval_of e b) i <-> pow (lang e) i (rb (symbols e) (bag_of b)).

Definition disj (e f : rbe) := forall x, In x (symbols e) -> In x (symbols f) -> False.

Lemma single_disj vs :
  ForallOrdPairs (fun e f => forall x, occurs x e -> occurs x f -> False) vs -> ForallOrdPairs disj vs.
Proof.
  induction 1 as [|v vs H _ IH]; constructor; auto.
  eapply Forall_impl; [|exact H]. intros f K x H1 H2.
  apply (K x); apply symbols_occurs; assumption.
Qed.

Lemma disj_flat v vs : Forall (disj v) vs ->
  forall x, In x (symbols v) -> In x (flat_map symbols vs) -> False.
Proof.
  intros H x H1 H2. apply in_flat_map in H2. destruct H2 as (f & Hf & H2).
  rewrite Forall_forall in H. exact (H f Hf x H1 H2).
Qed.

Lemma pow_And_nil i b : pow (lang (And [])) i b <-> beq b bzero.
Proof. apply pow_Empty. Qed.

Lemma pow_And_cons v vs i b :
  pow (lang (And (v :: vs))) i b <->
  exists b1 b2, beq b (bsum b1 b2) /\ pow (lang v) i b1 /\ pow (lang (And vs)) i b2.
Proof. apply (pow_prod (lang v) (lang (And vs))). Qed.

Lemma pow_Or_nil i b : pow (lang (Or [])) i b <-> i = 0 /\ beq b bzero.
Proof.
  destruct i; simpl.
  - tauto.
  - split; [firstorder|]. intros [H _]; discriminate.
Qed.

Lemma pow_Or_cons v vs i b :
  pow (lang (Or (v :: vs))) i b <->
  exists i1 i2 b1 b2, i = i1 + i2 /\ beq b (bsum b1 b2) /\ pow (lang v) i1 b1 /\ pow (lang (Or vs)) i2 b2.
Proof. apply (pow_union (lang v) (lang (Or vs))). Qed.

Lemma exact_And b i vs : ForallOrdPairs disj vs -> Forall (exact_at b i) vs -> exact_at b i (And vs).
Proof.
  intros D H. unfold exact_at. simpl interval_of.
  assert (K : forall acc,
    within (fold_left (fun acc v => int_inter acc (interval_of v b)) vs acc) i <->
    within acc i /\ pow (lang (And vs)) i (rb (symbols (And vs)) (bag_of b))).
  { induction H as [|v vs Hv Hvs IH]; intro acc.
    - cbn [fold_left]. rewrite pow_And_nil. split; [|tauto]. intro K. split; [exact K|]. intro a. reflexivity.
    - cbn [fold_left]. inversion D; subst. rewrite IH by assumption.
      unfold exact_at in Hv. rewrite within_inter, Hv. rewrite pow_And_cons.
      simpl symbols. pose proof (disj_flat _ _ H1) as DF. split.
      + intros [[K1 K2] K3]. split; [exact K1|].
        exists (rb (symbols v) (bag_of b)), (rb (flat_map symbols vs) (bag_of b)).
        split; [apply rb_split; exact DF|]. split; assumption.
      + intros [K1 (b1 & b2 & E & K2 & K3)].
        destruct (rb_unsplit _ _ _ _ _ DF E) as [E1 E2].
        * intros a N. eapply pow_supp; [apply lang_supp|exact K2|exact N].
        * intros a N. eapply pow_supp; [apply (lang_supp (And vs))|exact K3|exact N].
        * split; [split; [exact K1|]|].
          -- eapply pow_ext; [exact E1|exact K2].
          -- eapply pow_ext; [exact E2|exact K3]. }
  rewrite K. pose proof (within_zero_any i). tauto.
Qed.

Definition or_step (b : bag) (acc : interval) (v : rbe) : interval :=
  if int_is_empty acc then acc
  else let iv := interval_of v b in
       if int_is_empty iv then int_fail else int_add acc iv.

Lemma within_or_step b acc v i :
  within (or_step b acc v) i <->
  exists i1 i2, i = i1 + i2 /\ within acc i1 /\ within (interval_of v b) i2.
Proof.
  unfold or_step. destruct (int_is_empty acc) eqn:Ea.
  - pose proof (proj1 (is_empty_spec acc) Ea) as N. split; [intro H; exfalso; eapply N; eauto|].
    intros (i1 & i2 & _ & H & _). exfalso; eapply N; eauto.
  - cbv zeta. destruct (int_is_empty (interval_of v b)) eqn:Ev.
    + pose proof (proj1 (is_empty_spec _) Ev) as N. split; [intro H; exfalso; eapply within_fail; eauto|].
      intros (i1 & i2 & _ & _ & H). exfalso; eapply N; eauto.
    + apply within_add; assumption.
Qed.

Lemma exact_Or b i vs : ForallOrdPairs disj vs ->
  (forall j, j <= i -> Forall (exact_at b j) vs) -> exact_at b i (Or vs).
Proof.
  intros D H. unfold exact_at.
  change (interval_of (Or vs) b) with (fold_left (or_step b) vs zero_zero).
  assert (K : forall j acc, j <= i ->
    (within (fold_left (or_step b) vs acc) j <->
     exists j1 j2, j = j1 + j2 /\ within acc j1 /\ pow (lang (Or vs)) j2 (rb (symbols (Or vs)) (bag_of b)))).
  { induction vs as [|v vs IH]; intros j acc L.
    - cbn [fold_left]. split.
      + intro K. exists j, 0. split; [lia|]. split; [exact K|]. apply pow_Or_nil. split; [reflexivity|].
        intro a; reflexivity.
      + intros (j1 & j2 & -> & K1 & K2). apply pow_Or_nil in K2. destruct K2 as [-> _].
        rewrite Nat.add_0_r. exact K1.
    - cbn [fold_left]. inversion D as [|? ? H1 H2]; subst.
      assert (Hv : forall k, k <= i -> exact_at b k v).
      { intros k Lk. specialize (H k Lk). inversion H; assumption. }
      assert (Hvs : forall k, k <= i -> Forall (exact_at b k) vs).
      { intros k Lk. specialize (H k Lk). inversion H; assumption. }
      specialize (IH H2 Hvs). rewrite (IH j _ L). simpl symbols. pose proof (disj_flat _ _ H1) as DF.
      split.
      + intros (j1 & j2 & -> & K1 & K2). apply within_or_step in K1.
        destruct K1 as (k1 & k2 & -> & K1 & K3). apply Hv in K3; [|lia].
        exists k1, (k2 + j2). split; [lia|]. split; [exact K1|]. apply pow_Or_cons.
        exists k2, j2, (rb (symbols v) (bag_of b)), (rb (flat_map symbols vs) (bag_of b)).
        split; [reflexivity|]. split; [apply rb_split; exact DF|]. split; assumption.
      + intros (j1 & j2 & -> & K1 & K2). apply pow_Or_cons in K2.
        destruct K2 as (k1 & k2 & b1 & b2 & -> & E & K2 & K3).
        destruct (rb_unsplit _ _ _ _ _ DF E) as [E1 E2].
        * intros a N. eapply pow_supp; [apply lang_supp|exact K2|exact N].
        * intros a N. eapply pow_supp; [apply (lang_supp (Or vs))|exact K3|exact N].
        * exists (j1 + k1), k2. split; [lia|]. split.
          -- apply within_or_step. exists j1, k1. split; [reflexivity|]. split; [exact K1|].
             apply Hv; [lia|]. eapply pow_ext; [exact E1|exact K2].
          -- eapply pow_ext; [exact E2|exact K3]. }
  rewrite (K i zero_zero (le_n i)). split.
  - intros (j1 & j2 & -> & K1 & K2). apply within_zero_zero in K1. subst. exact K2.
  - intro K1. exists 0, i. split; [reflexivity|]. split; [apply within_zero_zero; reflexivity|exact K1].
Qed.

Lemma div_ceil_spec w m i : m <> 0 -> (div_ceil w m <= i <-> w <= i * m).
Proof.
  intro M. unfold div_ceil. pose proof (Nat.div_mod w m M) as D.
  pose proof (Nat.mod_upper_bound w m M) as U. set (q := w / m) in *. set (r := w mod m) in *.
  destruct (Nat.eqb_spec r 0) as [R|R].
  - split; intro H.
    + assert (q * m <= i * m) by (apply Nat.mul_le_mono_r; exact H). lia.
    + destruct (Nat.le_gt_cases q i); [assumption|].
      assert (S i * m <= q * m) by (apply Nat.mul_le_mono_r; lia). lia.
  - split; intro H.
    + assert (S q * m <= i * m) by (apply Nat.mul_le_mono_r; lia). lia.
    + destruct (Nat.le_gt_cases (S q) i); [assumption|].
      assert (i * m <= q * m) by (apply Nat.mul_le_mono_r; lia). lia.
Qed.

Lemma div_floor_spec w n i : n <> 0 -> (i <= w / n <-> i * n <= w).
Proof.
  intro M. pose proof (Nat.div_mod w n M) as D.
  pose proof (Nat.mod_upper_bound w n M) as U. set (q := w / n) in *. set (r := w mod n) in *.
  split; intro H.
  - assert (i * n <= q * n) by (apply Nat.mul_le_mono_r; exact H). lia.
  - destruct (Nat.le_gt_cases i q); [assumption|].
    assert (S q * n <= i * n) by (apply Nat.mul_le_mono_r; lia). lia.
Qed.

Lemma within_symbol c w i :
  within (mkInt (div_up (cmax c) w) (div_down (IntMax (cmin c)) w)) i <->
  i * cmin c <= w /\ le_max w (mul_max i (cmax c)).
Proof.
  rewrite within_spec. cbn [lo hi].
  assert (HD : le_max i (div_down (IntMax (cmin c)) w) <-> i * cmin c <= w).
  { destruct (cmin c) as [|n].
    - destruct w; cbn [div_down le_max]; lia.
    - destruct w as [|w]; cbn [div_down].
      + cbn [le_max]. destruct i; simpl; lia.
      + cbn [le_max]. apply div_floor_spec. lia. }
  rewrite HD.
  assert (HU : (exists l, div_up (cmax c) w = IntMax l /\ l <= i) <-> le_max w (mul_max i (cmax c))).
  { destruct w as [|w].
    - simpl. split.
      + intros _. destruct (cmax c); destruct i; simpl; try exact I; lia.
      + intros _. exists 0. split; [reflexivity|lia].
    - destruct (cmax c) as [|[|m]]; cbn [div_up mul_max].
      + split.
        * intros (l & E & L). injection E as <-. destruct i; [lia|exact I].
        * destruct i; cbn [le_max]; [lia|]. intros _. exists 1. split; [reflexivity|lia].
      + split; [intros (l & E & _); discriminate|]. cbn [le_max]. lia.
      + cbn [le_max]. split.
        * intros (l & E & L). injection E as <-. apply div_ceil_spec in L; [exact L|lia].
        * intro L. eexists. split; [reflexivity|]. apply div_ceil_spec; [lia|exact L]. }
  rewrite HU. tauto.
Qed.

Lemma no_symbols_spec e b : no_symbols_in_bag e b = true <-> beq (rb (symbols e) (bag_of b)) bzero.
Proof.
  unfold no_symbols_in_bag. rewrite forallb_forall. split.
  - intros H a. destruct (in_dec Nat.eq_dec a (symbols e)) as [I|N].
    + rewrite rb_in by exact I. specialize (H a I). apply Nat.eqb_eq in H. exact H.
    + apply rb_out. exact N.
  - intros H a I. specialize (H a). rewrite rb_in in H by exact I. apply Nat.eqb_eq. exact H.
Qed.

Lemma pow_zero_beq P b : beq b bzero -> pow P 0 b.
Proof. auto. Qed.

Section Iterated.
  Variables (v : rbe) (b : bag).
  Hypothesis Hv : forall i, exact_at b i v.
  Hypothesis Wv : wf v.
  Let R := rb (symbols v) (bag_of b).

  Lemma exact_Star i : exact_at b i (Star v).
  Proof.
    unfold exact_at. simpl symbols. fold R. cbn [interval_of].
    destruct (no_symbols_in_bag (Star v) b) eqn:N.
    - apply no_symbols_spec in N. simpl in N. fold R in N. split; [|intros _; apply within_zero_any].
      intros _. destruct i; [exact N|]. apply pow_Star. exists 0. exact N.
    - assert (NN : ~ beq R bzero).
      { intro H. assert (no_symbols_in_bag (Star v) b = true) by (apply no_symbols_spec; exact H). congruence. }
      cbv zeta. destruct (int_is_empty (interval_of v b)) eqn:E.
      + pose proof (proj1 (is_empty_spec _) E) as X. split; [intro H; exfalso; eapply X; eauto|].
        intro H. destruct i; [contradiction|]. apply pow_Star in H. destruct H as (j & H).
        apply Hv in H. exfalso; eapply X; eauto.
      + apply nonempty_spec in E. destruct E as (j & E). apply Hv in E. fold R in E.
        rewrite within_one_any. destruct i.
        * split; [lia|]. intro H. contradiction.
        * split; [|lia]. intros _. apply pow_Star. exists j. exact E.
  Qed.

  Lemma exact_Plus i : exact_at b i (Plus v).
  Proof.
    unfold exact_at. simpl symbols. fold R. cbn [interval_of].
    destruct (no_symbols_in_bag (Plus v) b) eqn:N.
    - apply no_symbols_spec in N. simpl in N. fold R in N.
      destruct (is_nullable v) eqn:NU.
      + apply is_nullable_spec in NU; [|exact Wv].
        split; [|intros _; apply within_zero_any]. intros _. destruct i; [exact N|].
        apply pow_Plus. exists (S i). split; [lia|]. eapply pow_ext; [apply beq_sym, N|].
        apply pow_zero_in; [apply lang_ext|exact NU].
      + rewrite within_zero_zero. split; [intros ->; exact N|]. intro H. destruct i; [reflexivity|].
        exfalso. apply pow_Plus in H. destruct H as ([|j] & L & H); [lia|].
        eapply pow_ext in H; [|exact N]. apply pow_zero_out in H; [|apply lang_ext].
        apply is_nullable_spec in H; [congruence|exact Wv].
    - assert (NN : ~ beq R bzero).
      { intro H. assert (no_symbols_in_bag (Plus v) b = true) by (apply no_symbols_spec; exact H). congruence. }
      cbv zeta. destruct (int_is_empty (interval_of v b)) eqn:E.
      + pose proof (proj1 (is_empty_spec _) E) as X. split; [intro H; exfalso; eapply X; eauto|].
        intro H. destruct i; [contradiction|]. apply pow_Plus in H. destruct H as (j & _ & H).
        apply Hv in H. exfalso; eapply X; eauto.
      + apply nonempty_spec in E. destruct E as (j & E).
        rewrite within_spec. cbn [lo hi]. split.
        * intros [(l & El & L) H]. injection El as <-. destruct i; [lia|]. apply pow_Plus.
          exists (Nat.max (S i) j). split; [lia|]. apply Hv. rewrite within_spec in *.
          destruct E as [(l & El & Ll) E]. split; [exists l; split; [exact El|lia]|].
          destruct (hi (interval_of v b)); cbn [le_max] in *; [exact I|lia].
        * intro H. destruct i; [contradiction|]. split; [exists 1; split; [reflexivity|lia]|].
          apply pow_Plus in H. destruct H as (k & L & H). apply Hv in H. apply within_spec in H.
          destruct H as [_ H]. destruct (hi (interval_of v b)); simpl in *; [exact I|lia].
  Qed.

  Lemma exact_Repeat c i : le_max (cmin c) (cmax c) -> i <= 1 -> exact_at b i (Repeat v c).
  Proof.
    intros Wc Li. unfold exact_at. simpl symbols. fold R. cbn [interval_of].
    assert (P1 : forall x, pow (lang (Repeat v c)) 1 x <-> exists k, in_card k c /\ pow (lang v) k x).
    { intro x. rewrite pow_1 by apply lang_ext. simpl. tauto. }
    destruct (no_symbols_in_bag (Repeat v c) b) eqn:N.
    - apply no_symbols_spec in N. simpl in N. fold R in N.
      destruct (card_nullable c || is_nullable v) eqn:NU.
      + split; [|intros _; apply within_zero_any]. intros _. destruct i; [exact N|].
        assert (i = 0) by lia. subst i. apply P1.
        apply orb_true_iff in NU. destruct NU as [NU|NU].
        * unfold card_nullable in NU. apply Nat.eqb_eq in NU. exists 0. split; [|exact N].
          split; [lia|]. destruct (cmax c); simpl; [exact I|lia].
        * apply is_nullable_spec in NU; [|exact Wv]. exists (cmin c). split; [apply in_card_exists; exact Wc|].
          eapply pow_ext; [apply beq_sym, N|]. apply pow_zero_in; [apply lang_ext|exact NU].
      + apply orb_false_iff in NU. destruct NU as [NU1 NU2]. unfold card_nullable in NU1.
        apply Nat.eqb_neq in NU1.
        rewrite within_zero_zero. split; [intros ->; exact N|]. intro H. destruct i; [reflexivity|].
        exfalso. assert (i = 0) by lia. subst i. apply P1 in H. destruct H as ([|k] & [L1 L2] & H); [lia|].
        eapply pow_ext in H; [|exact N]. apply pow_zero_out in H; [|apply lang_ext].
        apply is_nullable_spec in H; [congruence|exact Wv].
    - assert (NN : ~ beq R bzero).
      { intro H. assert (no_symbols_in_bag (Repeat v c) b = true) by (apply no_symbols_spec; exact H). congruence. }
      assert (HC : forall k, within (mkInt (IntMax (cmin c)) (cmax c)) k <-> in_card k c).
      { intro k. rewrite within_spec. cbn [lo hi]. unfold in_card. split.
        - intros [(l & E & L) H]. injection E as <-. auto.
        - intros [L H]. split; [eauto|exact H]. }
      cbv zeta. destruct (int_is_empty (interval_of v b)) eqn:E.
      + pose proof (proj1 (is_empty_spec _) E) as X. split; [intro H; exfalso; eapply X; eauto|].
        intro H. destruct i; [contradiction|]. assert (i = 0) by lia. subst i.
        apply P1 in H. destruct H as (j & _ & H). apply Hv in H. exfalso; eapply X; eauto.
      + destruct (int_is_empty (int_inter (interval_of v b) (mkInt (IntMax (cmin c)) (cmax c)))) eqn:E2.
        * pose proof (proj1 (is_empty_spec _) E2) as X. split; [intro H; exfalso; eapply within_fail; eauto|].
          intro H. destruct i; [contradiction|]. assert (i = 0) by lia. subst i.
          apply P1 in H. destruct H as (k & L & H). exfalso. apply (X k). apply within_inter.
          split; [apply Hv; exact H|apply HC; exact L].
        * apply nonempty_spec in E2. destruct E2 as (k & E2). apply within_inter in E2.
          destruct E2 as [K1 K2]. apply Hv in K1. apply HC in K2.
          rewrite within_1_1. split.
          -- intros ->. apply P1. exists k. auto.
          -- intro H. destruct i; [contradiction|]. lia.
  Qed.
End Iterated.

Lemma fold_and_Forall (P : rbe -> Prop) vs :
  fold_right (fun e Q => P e /\ Q) True vs <-> Forall P vs.
Proof.
  induction vs; simpl; [split; [constructor|tauto]|].
  rewrite IHvs. split; [intros []; constructor; auto|inversion 1; auto].
Qed.

Lemma exact_no_repeat e b : wf e -> no_fail e -> single e -> no_repeat e ->
  forall i, exact_at b i e.
Proof.
  unfold wf, no_fail. induction e using rbe_ind'; intros W F S NR i.
  - exfalso. exact (proj1 F).
  - unfold exact_at. simpl. split; [|intros _; apply within_zero_any].
    intros _. apply pow_Empty. intro a. reflexivity.
  - unfold exact_at. cbn [interval_of symbols]. cbv zeta. rewrite within_symbol.
    assert (E : bag_count b v = rb [v] (bag_of b) v) by (rewrite rb_in by (left; reflexivity); reflexivity).
    rewrite E. symmetry. apply pow_Symbol. intros a N. apply rb_out. intros [->|[]]; congruence.
  - apply everywhere_And in W. apply everywhere_And in F. destruct S as [S D].
    simpl in NR. rewrite fold_and_Forall in S, NR. destruct W as [_ W], F as [_ F].
    apply exact_And; [apply single_disj; exact D|].
    rewrite Forall_forall in *. intros v Hv. apply H; auto.
  - apply everywhere_Or in W. apply everywhere_Or in F. destruct S as [S D].
    simpl in NR. rewrite fold_and_Forall in S, NR. destruct W as [_ W], F as [_ F].
    apply exact_Or; [apply single_disj; exact D|].
    rewrite Forall_forall in *. intros j _. rewrite Forall_forall. intros v Hv. apply H; auto.
  - apply exact_Star. apply IHe; [apply W|apply F|exact S|exact NR].
  - apply exact_Plus; [|apply W]. apply IHe; [apply W|apply F|exact S|exact NR].
  - contradiction.
Qed.

Lemma exact_shallow e b : wf e -> no_fail e -> single e -> shallow_repeat e ->
  forall i, i <= 1 -> exact_at b i e.
Proof.
  unfold wf, no_fail. induction e using rbe_ind'; intros W F S NR i Li.
  - exfalso. exact (proj1 F).
  - apply exact_no_repeat; auto.
  - apply exact_no_repeat; auto; exact I.
  - apply everywhere_And in W. apply everywhere_And in F. destruct S as [S D].
    simpl in NR. rewrite fold_and_Forall in S, NR. destruct W as [_ W], F as [_ F].
    apply exact_And; [apply single_disj; exact D|].
    rewrite Forall_forall in *. intros v Hv. apply H; auto.
  - apply everywhere_Or in W. apply everywhere_Or in F. destruct S as [S D].
    simpl in NR. rewrite fold_and_Forall in S, NR. destruct W as [_ W], F as [_ F].
    apply exact_Or; [apply single_disj; exact D|].
    rewrite Forall_forall in *. intros j Lj. rewrite Forall_forall. intros v Hv. apply H; auto. lia.
  - apply exact_Star. apply exact_no_repeat; [apply W|apply F|exact S|exact NR].
  - apply exact_Plus; [|apply W]. apply exact_no_repeat; [apply W|apply F|exact S|exact NR].
  - apply exact_Repeat; [|apply W|exact (proj1 W)|exact Li].
    apply exact_no_repeat; [apply W|apply F|exact S|exact NR].
Qed.

(** ** The prepared expression *)

Lemma rs_from_rbe e : no_fail e -> rs_rbe (rs_from e) = e.
Proof.
  unfold no_fail. induction e using rbe_ind'; intro F; simpl.
  - contradiction (proj1 F).
  - reflexivity.
  - reflexivity.
  - f_equal. apply everywhere_And in F. destruct F as [_ F]. rewrite map_map.
    induction vs as [|v vs IH]; [reflexivity|]. inversion H; inversion F; subst. simpl. f_equal; auto.
  - f_equal. apply everywhere_Or in F. destruct F as [_ F]. rewrite map_map.
    induction vs as [|v vs IH]; [reflexivity|]. inversion H; inversion F; subst. simpl. f_equal; auto.
  - f_equal. apply IHe, F.
  - f_equal. apply IHe, F.
  - destruct c. simpl. f_equal. apply IHe, F.
Qed.

Lemma rs_from_symbols e x : In x (rs_symbols (rs_from e)) <-> In x (symbols e).
Proof.
  assert (G : forall vs, Forall (fun v => In x (rs_symbols (rs_from v)) <-> In x (symbols v)) vs ->
      (In x (to_set (flat_map rs_symbols (map rs_from vs))) <-> In x (flat_map symbols vs))).
  { intros vs H. unfold to_set. rewrite nodup_In.
    induction H as [|v vs Hv _ IH]; simpl; [tauto|]. rewrite !in_app_iff, IH, Hv. tauto. }
  induction e using rbe_ind'; simpl; try tauto; apply G; exact H.
Qed.

Lemma overlap_spec es : forall seen,
  symbol_overlap seen (map rs_from es) = false <->
  Forall (fun e => forall x, In x (symbols e) -> In x seen -> False) es /\ ForallOrdPairs disj es.
Proof.
  induction es as [|e es IH]; intro seen; simpl.
  - split; [split; constructor|reflexivity].
  - rewrite orb_false_iff, IH.
    assert (A : existsb (fun s => mem s seen) (rs_symbols (rs_from e)) = false <->
                forall x, In x (symbols e) -> In x seen -> False).
    { split.
      - intros H x H1 H2. assert (existsb (fun s => mem s seen) (rs_symbols (rs_from e)) = true).
        { apply existsb_exists. exists x. split; [apply rs_from_symbols; exact H1|apply mem_spec; exact H2]. }
        congruence.
      - intro H. destruct (existsb _ _) eqn:E; [|reflexivity]. apply existsb_exists in E.
        destruct E as (x & H1 & H2). exfalso. apply (H x); [apply rs_from_symbols, H1|apply mem_spec, H2]. }
    rewrite A. split.
    + intros [H1 [H2 H3]]. split.
      * constructor; [exact H1|]. eapply Forall_impl; [|exact H2]. intros f K x Hx Hs.
        apply (K x Hx). apply in_app_iff. auto.
      * constructor; [|exact H3]. eapply Forall_impl; [|exact H2]. intros f K x Hx Hf.
        apply (K x Hf). apply in_app_iff. left. apply rs_from_symbols. exact Hx.
    + intros [H1 H2]. inversion H1; inversion H2; subst. split; [assumption|]. split; [|assumption].
      rewrite Forall_forall in *. intros f Hf x Hx Hin. apply in_app_iff in Hin.
      destruct Hin as [Hin|Hin].
      * apply rs_from_symbols in Hin. eapply H7; eauto.
      * eapply H4; eauto.
Qed.

Lemma disj_single vs :
  ForallOrdPairs disj vs ->
  ForallOrdPairs (fun e f => forall x, occurs x e -> occurs x f -> False) vs.
Proof.
  induction 1 as [|v vs H _ IH]; constructor; auto.
  eapply Forall_impl; [|exact H]. intros f K x H1 H2.
  apply (K x); apply symbols_occurs; assumption.
Qed.

(** the flag set while building records exactly the repeated occurrences *)
Lemma rs_from_repeats e : no_fail e -> (rs_repeats (rs_from e) = false <-> single e).
Proof.
  assert (G : forall vs, Forall (everywhere (fun e => match e with Fail _ => False | _ => True end)) vs ->
     Forall (fun v => no_fail v -> (rs_repeats (rs_from v) = false <-> single v)) vs ->
     (existsb rs_repeats (map rs_from vs) || symbol_overlap [] (map rs_from vs) = false <->
      fold_right (fun e P => single e /\ P) True vs /\
      ForallOrdPairs (fun e f => forall x, occurs x e -> occurs x f -> False) vs)).
  { intros vs F H. rewrite orb_false_iff, overlap_spec, fold_and_Forall.
    assert (A : existsb rs_repeats (map rs_from vs) = false <-> Forall single vs).
    { induction vs as [|v vs IH]; simpl; [split; [constructor|reflexivity]|].
      inversion F; inversion H; subst. rewrite orb_false_iff, IH, H6 by assumption.
      split; [intros []; constructor; auto|inversion 1; auto]. }
    rewrite A. split.
    - intros [H1 [_ H2]]. split; [exact H1|apply disj_single; exact H2].
    - intros [H1 H2]. split; [exact H1|]. split; [|apply single_disj; exact H2].
      apply Forall_forall. intros f _ x _ []. }
  unfold no_fail in *. induction e using rbe_ind'; intro F; simpl.
  - contradiction (proj1 F).
  - tauto.
  - tauto.
  - apply everywhere_And in F. apply G; [apply F|exact H].
  - apply everywhere_Or in F. apply G; [apply F|exact H].
  - apply IHe, F.
  - apply IHe, F.
  - apply IHe, F.
Qed.

Lemma extra_symbols_spec r e b : (forall x, In x (rs_symbols r) <-> In x (symbols e)) ->
  (extra_symbols r b = [] <-> beq (rb (symbols e) (bag_of b)) (bag_of b)).
Proof.
  intro HS. unfold extra_symbols. split.
  - intros H a. destruct (in_dec Nat.eq_dec a (symbols e)) as [I|N]; [apply rb_in, I|].
    rewrite rb_out by exact N. unfold bag_of. symmetry. apply count_occ_not_In. intro K.
    assert (In a (filter (fun s => negb (mem s (rs_symbols r))) b)).
    { apply filter_In. split; [exact K|]. apply negb_true_iff, mem_false. rewrite HS. exact N. }
    rewrite H in H0. exact H0.
  - intro H. destruct (filter _ b) as [|x l] eqn:E; [reflexivity|]. exfalso.
    assert (K : In x (filter (fun s => negb (mem s (rs_symbols r))) b)) by (rewrite E; left; reflexivity).
    apply filter_In in K. destruct K as [K1 K2]. apply negb_true_iff, mem_false in K2. rewrite HS in K2.
    specialize (H x). rewrite rb_out in H by exact K2. unfold bag_of in H.
    apply (count_occ_In Nat.eq_dec) in K1. lia.
Qed.

Lemma match_interval_single e b op : no_fail e -> single e ->
  (match_bag_interval (rs_from e) b op = None <->
   (op = true \/ beq (rb (symbols e) (bag_of b)) (bag_of b)) /\ within (interval_of e b) 1).
Proof.
  intros F S. unfold match_bag_interval. rewrite (proj2 (rs_from_repeats e F) S), (rs_from_rbe e F).
  pose proof (extra_symbols_spec (rs_from e) e b (fun x => rs_from_symbols e x)) as X.
  unfold within. destruct op; simpl.
  - destruct (int_contains (interval_of e b) 1); split; intuition discriminate.
  - destruct (extra_symbols (rs_from e) b) eqn:E; simpl.
    + destruct (int_contains (interval_of e b) 1); split; intuition discriminate.
    + split; [discriminate|]. intros [[?|H] _]; [discriminate|]. apply X in H. discriminate.
Qed.

Theorem match_interval_closed e b : wf e -> no_fail e -> single e -> shallow_repeat e ->
  (match_bag_interval (rs_from e) b false = None <-> lang e (bag_of b)).
Proof.
  intros W F S R. rewrite match_interval_single by assumption.
  pose proof (exact_shallow e b W F S R 1 (le_n 1)) as X. unfold exact_at in X.
  rewrite X, pow_1 by apply lang_ext. split.
  - intros [[X0|E] H]; [discriminate|]. exact (lang_ext e _ _ E H).
  - intro H. assert (E : beq (rb (symbols e) (bag_of b)) (bag_of b)).
    { intro a. destruct (in_dec Nat.eq_dec a (symbols e)) as [I|N]; [apply rb_in, I|].
      rewrite rb_out by exact N. symmetry. eapply lang_supp; eauto. }
    split; [right; exact E|]. exact (lang_ext e _ _ (beq_sym _ _ E) H).
Qed.

Theorem match_interval_open e b : wf e -> no_fail e -> single e -> shallow_repeat e ->
  (match_bag_interval (rs_from e) b true = None <-> lang e (rb (symbols e) (bag_of b))).
Proof.
  intros W F S R. rewrite match_interval_single by assumption.
  pose proof (exact_shallow e b W F S R 1 (le_n 1)) as X. unfold exact_at in X.
  rewrite X, pow_1 by apply lang_ext. tauto.
Qed.

(** an expression with a repeated symbol is handed to the derivative matcher *)
Theorem match_interval_repeats e b op : no_fail e -> ~ single e ->
  match_bag_interval (rs_from e) b op = match_bag_deriv e b op.
Proof.
  intros F S. unfold match_bag_interval. rewrite (rs_from_rbe e F).
  destruct (rs_repeats (rs_from e)) eqn:E; [reflexivity|]. exfalso. apply S, rs_from_repeats; assumption.
Qed.

(** ** Acceptance by the interval matcher is never wrong, nested repetitions included *)

Definition sound_at (b : bag) (i : nat) (e : rbe) : Prop :=
  within (interval_of e b) i -> pow (lang e) i (rb (symbols e) (bag_of b)).

Lemma sound_And b i vs : ForallOrdPairs disj vs -> Forall (sound_at b i) vs -> sound_at b i (And vs).
Proof.
  intros D H. unfold sound_at. simpl interval_of. generalize zero_any.
  induction H as [|v vs Hv Hvs IH]; intros acc K.
  - apply pow_And_nil. intro a. reflexivity.
  - cbn [fold_left] in K. inversion D; subst.
    assert (Acc : within (int_inter acc (interval_of v b)) i).
    { clear - K. revert K. generalize (int_inter acc (interval_of v b)). induction vs; intros x K; [exact K|].
      cbn [fold_left] in K. apply IHvs in K. apply within_inter in K. apply K. }
    apply IH in K; [|assumption]. apply within_inter in Acc.
    apply pow_And_cons. simpl symbols. pose proof (disj_flat _ _ H1) as DF.
    exists (rb (symbols v) (bag_of b)), (rb (flat_map symbols vs) (bag_of b)).
    split; [apply rb_split; exact DF|]. split; [apply Hv, Acc|exact K].
Qed.

Lemma sound_Or b i vs : ForallOrdPairs disj vs ->
  (forall j, j <= i -> Forall (sound_at b j) vs) -> sound_at b i (Or vs).
Proof.
  intros D H. unfold sound_at.
  change (interval_of (Or vs) b) with (fold_left (or_step b) vs zero_zero).
  assert (K : forall j acc, j <= i -> within (fold_left (or_step b) vs acc) j ->
     exists j1 j2, j = j1 + j2 /\ within acc j1 /\ pow (lang (Or vs)) j2 (rb (symbols (Or vs)) (bag_of b))).
  { induction vs as [|v vs IH]; intros j acc L K.
    - exists j, 0. split; [lia|]. split; [exact K|]. apply pow_Or_nil. split; [reflexivity|].
      intro a; reflexivity.
    - cbn [fold_left] in K. inversion D as [|? ? H1 H2]; subst.
      assert (Hv : forall k, k <= i -> sound_at b k v).
      { intros k Lk. specialize (H k Lk). inversion H; assumption. }
      assert (Hvs : forall k, k <= i -> Forall (sound_at b k) vs).
      { intros k Lk. specialize (H k Lk). inversion H; assumption. }
      apply (IH H2 Hvs) in K; [|exact L]. simpl symbols. pose proof (disj_flat _ _ H1) as DF.
      destruct K as (j1 & j2 & -> & K1 & K2). apply within_or_step in K1.
      destruct K1 as (k1 & k2 & -> & K1 & K3). apply Hv in K3; [|lia].
      exists k1, (k2 + j2). split; [lia|]. split; [exact K1|]. apply pow_Or_cons.
      exists k2, j2, (rb (symbols v) (bag_of b)), (rb (flat_map symbols vs) (bag_of b)).
      split; [reflexivity|]. split; [apply rb_split; exact DF|]. split; assumption. }
  intro K1. apply (K i zero_zero (le_n i)) in K1.
  destruct K1 as (j1 & j2 & -> & K1 & K2). apply within_zero_zero in K1. subst. exact K2.
Qed.

Section IteratedSound.
  Variables (v : rbe) (b : bag).
  Hypothesis Hv : forall i, sound_at b i v.
  Hypothesis Wv : wf v.
  Let R := rb (symbols v) (bag_of b).

  Lemma sound_Star i : sound_at b i (Star v).
  Proof.
    unfold sound_at. simpl symbols. fold R. cbn [interval_of].
    destruct (no_symbols_in_bag (Star v) b) eqn:N.
    - apply no_symbols_spec in N. simpl in N. fold R in N.
      intros _. destruct i; [exact N|]. apply pow_Star. exists 0. exact N.
    - cbv zeta. destruct (int_is_empty (interval_of v b)) eqn:E; intro H.
      + exfalso. exact (proj1 (is_empty_spec _) E _ H).
      + apply nonempty_spec in E. destruct E as (j & E). apply Hv in E. fold R in E.
        apply within_one_any in H. destruct i; [lia|]. apply pow_Star. exists j. exact E.
  Qed.

  Lemma sound_Plus i : sound_at b i (Plus v).
  Proof.
    unfold sound_at. simpl symbols. fold R. cbn [interval_of].
    destruct (no_symbols_in_bag (Plus v) b) eqn:N.
    - apply no_symbols_spec in N. simpl in N. fold R in N.
      destruct (is_nullable v) eqn:NU.
      + apply is_nullable_spec in NU; [|exact Wv]. intros _. destruct i; [exact N|].
        apply pow_Plus. exists (S i). split; [lia|]. eapply pow_ext; [apply beq_sym, N|].
        apply pow_zero_in; [apply lang_ext|exact NU].
      + intro H. apply within_zero_zero in H. subst. exact N.
    - cbv zeta. destruct (int_is_empty (interval_of v b)) eqn:E; intro H.
      + exfalso. exact (proj1 (is_empty_spec _) E _ H).
      + apply nonempty_spec in E. destruct E as (j & E).
        rewrite within_spec in H. cbn [lo hi] in H. destruct H as [(l & El & L) H].
        injection El as <-. destruct i; [lia|]. apply pow_Plus.
        exists (Nat.max (S i) j). split; [lia|]. apply Hv. rewrite within_spec in *.
        destruct E as [(l & El & Ll) E]. split; [exists l; split; [exact El|lia]|].
        destruct (hi (interval_of v b)); cbn [le_max] in *; [exact I|lia].
  Qed.

  Lemma sound_Repeat c i : le_max (cmin c) (cmax c) -> sound_at b i (Repeat v c).
  Proof.
    intros Wc. unfold sound_at. simpl symbols. fold R. cbn [interval_of].
    destruct (no_symbols_in_bag (Repeat v c) b) eqn:N.
    - apply no_symbols_spec in N. simpl in N. fold R in N.
      destruct (card_nullable c || is_nullable v) eqn:NU.
      + intros _. eapply pow_ext; [apply beq_sym, N|]. apply pow_zero_in; [apply lang_ext|].
        simpl. apply orb_true_iff in NU. destruct NU as [NU|NU].
        * unfold card_nullable in NU. apply Nat.eqb_eq in NU. exists 0. split; [|apply beq_refl].
          split; [lia|]. destruct (cmax c); simpl; [exact I|lia].
        * apply is_nullable_spec in NU; [|exact Wv]. exists (cmin c). split; [apply in_card_exists; exact Wc|].
          apply pow_zero_in; [apply lang_ext|exact NU].
      + intro H. apply within_zero_zero in H. subst. exact N.
    - cbv zeta. destruct (int_is_empty (interval_of v b)) eqn:E; intro H.
      + exfalso. exact (proj1 (is_empty_spec _) E _ H).
      + destruct (int_is_empty (int_inter (interval_of v b) (mkInt (IntMax (cmin c)) (cmax c)))) eqn:E2.
        * exfalso. eapply within_fail; eauto.
        * apply nonempty_spec in E2. destruct E2 as (k & E2). apply within_inter in E2.
          destruct E2 as [K1 K2]. apply Hv in K1. apply within_1_1 in H. subst i.
          apply pow_1; [apply lang_ext|]. exists k. split; [|exact K1].
          rewrite within_spec in K2. cbn [lo hi] in K2. destruct K2 as [(l & El & L) K2].
          injection El as <-. split; assumption.
  Qed.
End IteratedSound.

Lemma interval_sound e b : wf e -> single e -> forall i, sound_at b i e.
Proof.
  unfold wf. induction e using rbe_ind'; intros W S i.
  - intro H. exfalso. eapply within_fail; eauto.
  - intros _. apply pow_Empty. intro a. reflexivity.
  - unfold sound_at. cbn [interval_of symbols]. cbv zeta. rewrite within_symbol.
    assert (E : bag_count b v = rb [v] (bag_of b) v) by (rewrite rb_in by (left; reflexivity); reflexivity).
    rewrite E. apply pow_Symbol. intros a N. apply rb_out. intros [->|[]]; congruence.
  - apply everywhere_And in W. destruct S as [S D]. rewrite fold_and_Forall in S. destruct W as [_ W].
    apply sound_And; [apply single_disj; exact D|].
    rewrite Forall_forall in *. intros v Hv. apply H; auto.
  - apply everywhere_Or in W. destruct S as [S D]. rewrite fold_and_Forall in S. destruct W as [_ W].
    apply sound_Or; [apply single_disj; exact D|].
    rewrite Forall_forall in *. intros j _. rewrite Forall_forall. intros v Hv. apply H; auto.
  - apply sound_Star. apply IHe; [apply W|exact S].
  - apply sound_Plus; [|apply W]. apply IHe; [apply W|exact S].
  - apply sound_Repeat; [|apply W|exact (proj1 W)]. apply IHe; [apply W|exact S].
Qed.

Theorem match_interval_sound e b : wf e -> no_fail e -> single e ->
  match_bag_interval (rs_from e) b false = None -> lang e (bag_of b).
Proof.
  intros W F S H. apply match_interval_single in H; [|assumption..].
  destruct H as [[X0|E] H]; [discriminate|]. apply interval_sound in H; [|assumption..].
  apply (lang_ext e _ _ E). apply (proj1 (pow_1 _ _ (lang_ext e)) H).
Qed.
