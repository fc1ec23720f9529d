(** The readers of names and numbers take the longest word. *)
From Coq Require Import List NArith ZArith Bool Lia.
From Verif Require Import LexModel LexSpec LexCore LexLemmas.
Import ListNotations.
Local Open Scope N_scope.

(** * Runs of characters *)

Section Runs.
Variable f : char -> bool.
Variable P : char -> Prop.
Hypothesis fP : forall c, f c = true <-> P c.

Lemma take_while_spec : forall i, exists w r, take_while f i = Ok w r /\ i = w ++ r /\ Forall P w /\ stops P r.
Proof.
  induction i as [|c i IH]; cbn.
  - exists [], []. split; [reflexivity|split; [reflexivity|split; [constructor|]]]. intros c s E. discriminate.
  - destruct (f c) eqn:F.
    + destruct IH as (w & r & H & -> & Fw & St). exists (c :: w), r. unfold pmap. rewrite H.
      split; [reflexivity|split; [reflexivity|split; [constructor; [apply fP, F|exact Fw]|exact St]]].
    + exists [], (c :: i). split; [reflexivity|split; [reflexivity|split; [constructor|]]].
      intros c' s E Pc. injection E as <- <-. apply fP in Pc. congruence.
Qed.
Lemma take_while_app : forall w r, Forall P w -> stops P r -> take_while f (w ++ r) = Ok w r.
Proof.
  induction w as [|c w IH]; intros r Fw St; cbn.
  - destruct r as [|c r]; cbn; [reflexivity|]. destruct (f c) eqn:F; [|reflexivity]. apply fP in F. destruct (St c r eq_refl F).
  - inversion Fw as [|? ? Hc Hw]; subst. rewrite (proj2 (fP c) Hc). unfold pmap. rewrite (IH _ Hw St). reflexivity.
Qed.
Lemma run_longest : forall w r w' r', w ++ r = w' ++ r' -> Forall P w' -> stops P r -> (length w' <= length w)%nat.
Proof.
  intros w r w' r' E Fw St. destruct (Nat.le_gt_cases (length w') (length w)) as [H|H]; [exact H|exfalso].
  destruct (app_short _ _ _ _ E ltac:(lia)) as ([|c m] & -> & ->); [rewrite app_nil_r in H; lia|].
  apply Forall_app in Fw. destruct Fw as (_ & Fw). inversion Fw; subst. eapply St; [reflexivity|eassumption].
Qed.

Lemma reads_take : forall bad, reads bad (take_while f) (itself (Forall P)).
Proof.
  intros bad i. destruct (take_while_spec i) as (w & r & -> & -> & Fw & St). exists w. split; [reflexivity|split].
  - intros v'. unfold itself. tauto.
  - intros w' r' v' E (_ & H). eapply run_longest; eassumption.
Qed.
Lemma take_while1_spec : forall i, (exists w r, take_while1 f i = Ok w r /\ i = w ++ r /\ w <> [] /\ Forall P w /\ stops P r) \/
  take_while1 f i = Err /\ stops P i.
Proof.
  intros i. unfold take_while1. destruct (take_while_spec i) as (w & r & -> & -> & Fw & St). destruct w as [|c w].
  - right. auto.
  - left. exists (c :: w), r. split; [reflexivity|split; [reflexivity|split; [discriminate|auto]]].
Qed.
Lemma reads_take1 : forall bad, reads bad (take_while1 f) (itself (fun w => w <> [] /\ Forall P w)).
Proof.
  intros bad i. destruct (take_while1_spec i) as [(w & r & -> & -> & Ne & Fw & St)|(-> & St)].
  - exists w. split; [reflexivity|split].
    + intros v'. unfold itself. tauto.
    + intros w' r' v' E (_ & _ & H). eapply run_longest; eassumption.
  - intros w r v E (_ & Ne & Fw). destruct w as [|c w]; [congruence|]. inversion Fw; subst. eapply St; [reflexivity|eassumption].
Qed.

(** A run, and then a word that is empty or goes on in another way. *)
Variable B : Type.
Variable bad : str -> Prop.
Variable p : parser B.
Variable M : lang B.
Hypothesis On : onward bad.
Hypothesis Rp : reads bad p M.
Hypothesis other : forall w v, M w v -> stops P w.

Lemma reads_greedy : reads bad (fun i => bind (take_while f i) (fun _ => p))
  (fun w v => exists a m, w = a ++ m /\ Forall P a /\ M m v).
Proof.
  intros i. destruct (take_while_spec i) as (a & r & E & -> & Fa & St). rewrite E. cbn [bind].
  assert (K : forall w' r' v' a' m', a ++ r = w' ++ r' -> w' = a' ++ m' -> Forall P a' -> M m' v' ->
    (a' = a /\ r = m' ++ r') \/ (m' = [] /\ (length w' < length a)%nat)).
  { intros w' r' v' a' m' E' -> Fa' Mm. rewrite <- app_assoc in E'. pose proof (run_longest _ _ _ _ E' Fa' St) as Hl.
    symmetry in E'. destruct (app_short _ _ _ _ E' Hl) as (x & Ex & Er). destruct x as [|c x].
    - left. rewrite app_nil_r in Ex. subst a. cbn in Er. auto.
    - right. destruct m' as [|d m']; [split; [reflexivity|subst a; rewrite !app_length; cbn; lia]|].
      exfalso. cbn in Er. injection Er as -> _. subst a. apply Forall_app in Fa. destruct Fa as (_ & Fa). inversion Fa; subst.
      eapply (other _ _ Mm); [reflexivity|eassumption]. }
  pose proof (Rp r) as R. destruct (p r) as [v r2| | |].
  - destruct R as (w & -> & V & U). exists (a ++ w). split; [apply app_assoc|split].
    + intros v'. split.
      * intros (a' & m' & Ew & Fa' & Mm). destruct (K (a ++ w) r2 v' a' m' ltac:(rewrite app_assoc; reflexivity) Ew Fa' Mm) as [(-> & Er)|(_ & Hl)].
        -- apply app_inv_head in Ew. subst m'. apply V, Mm.
        -- rewrite app_length in Hl. lia.
      * intros ->. exists a, w. split; [reflexivity|split; [exact Fa|apply V; reflexivity]].
    + intros w' r' v' E' (a' & m' & Ew & Fa' & Mm). destruct (K _ _ _ _ _ E' Ew Fa' Mm) as [(-> & Er)|(_ & Hl)].
      * pose proof (U _ _ _ Er Mm). subst w'. rewrite !app_length. lia.
      * rewrite app_length. lia.
  - intros w' r' v' E' (a' & m' & Ew & Fa' & Mm). destruct (K _ _ _ _ _ E' Ew Fa' Mm) as [(-> & Er)|(-> & Hl)].
    + exact (R _ _ _ Er Mm).
    + exact (R [] r v' eq_refl Mm).
  - intros w' r' v' E' (a' & m' & Ew & Fa' & Mm). destruct (K _ _ _ _ _ E' Ew Fa' Mm) as [(-> & Er)|(-> & Hl)].
    + exact (R _ _ _ Er Mm).
    + exact (R [] r v' eq_refl Mm).
  - apply On, R.
Qed.
Lemma reads_greedy1 : reads bad (fun i => bind (take_while1 f i) (fun _ => p))
  (fun w v => exists a m, w = a ++ m /\ (a <> [] /\ Forall P a) /\ M m v).
Proof.
  intros i. pose proof (reads_greedy i) as R. cbv beta in R. destruct (take_while_spec i) as (a & r & E & -> & Fa & St).
  rewrite E in R. cbn [bind] in R. unfold take_while1. rewrite E. destruct a as [|c a].
  - cbn [bind]. intros w' r' v' E' (a' & m' & -> & (Ne & Fa') & Mm). destruct a' as [|c a']; [congruence|].
    cbn in E'. inversion Fa'; subst. eapply St; [reflexivity|eassumption].
  - cbn [bind]. destruct (p r) as [v r2| | |].
    + destruct R as (w & Ew & V & U). exists w. split; [exact Ew|split].
      * intros v'. rewrite <- V. split; [intros (a' & m' & H1 & (_ & H2) & H3); eauto|].
        intros (a' & m' & H1 & H2 & H3). exists a', m'. split; [exact H1|split; [split; [|exact H2]|exact H3]]. intros ->. cbn in H1. subst m'.
        (* a word without a run is shorter *)
        pose proof (other _ _ H3) as O. destruct w as [|d w].
        -- pose proof (U [c] (a ++ r) v') as K. assert (HM : M [] v').
           { exact H3. }
           specialize (K eq_refl). assert ((1 <= 0)%nat); [|lia]. apply K. exists [c], []. split; [reflexivity|].
           inversion Fa; subst. split; [constructor; [assumption|constructor]|exact HM].
        -- cbn in Ew. injection Ew as <- Ew. inversion Fa; subst. eapply O; [reflexivity|assumption].
      * intros w' r' v' E' (a' & m' & H1 & (_ & H2) & H3). eapply U; [exact E'|]. eauto.
    + intros w' r' v' E' (a' & m' & H1 & (_ & H2) & H3). eapply R; [exact E'|]. eauto.
    + intros w' r' v' E' (a' & m' & H1 & (_ & H2) & H3). eapply R; [exact E'|]. eauto.
    + exact R.
Qed.
End Runs.

Lemma reads_recognize : forall A bad (p : parser A) L, reads bad p L -> reads bad (recognize p) (fun w v => v = w /\ exists x, L w x).
Proof.
  intros A bad p L R i. specialize (R i). unfold recognize. destruct (p i) as [x r| | |].
  - destruct R as (w & -> & V & U). exists w. rewrite used_app. split; [reflexivity|split].
    + intros v'. split; [tauto|]. intros ->. split; [reflexivity|exists x; apply V; reflexivity].
    + intros w' r' v' E' (_ & y & H). eapply U; eassumption.
  - intros w r v E (_ & x & H). eapply R; eassumption.
  - intros w r v E (_ & x & H). eapply R; eassumption.
  - exact R.
Qed.
Lemma scan_recognize : forall A bad (p : parser A) L, scan bad p L -> scan bad (recognize p) (fun w v => v = w /\ exists x, L w x).
Proof.
  intros A bad p L R i. specialize (R i). unfold recognize. destruct (p i) as [x r| | |].
  - destruct R as (w & -> & V & U). exists w. rewrite used_app. split; [reflexivity|split; [eauto|]].
    intros w' r' v' E' (-> & y & H). destruct (U _ _ _ E' H) as (-> & _). auto.
  - intros w r v E (_ & x & H). eapply R; eassumption.
  - exact R.
  - exact R.
Qed.

(** * Numbers *)

Definition is_sign (c : char) : Prop := c = 43 \/ c = 45.
Lemma sign_iff : forall c, among [43; 45] c = true <-> is_sign c.
Proof. intros c. rewrite among_In. unfold is_sign. cbn. intuition. Qed.
Lemma reads_signed : forall A bad (p : parser A) L, onward bad -> reads bad p L -> proper L -> (forall w v, L w v -> stops is_sign w) ->
  reads bad (fun i => bind (popt sign i) (fun _ => p)) (fun w v => exists s m, w = s ++ m /\ signs s /\ L m v).
Proof.
  intros A bad p L On R Pr St i. unfold popt, sign, one_of, satisfy. destruct i as [|c i].
  - cbn [bind]. pose proof (R []) as Ri. destruct (p []) as [v r| | |]; [exfalso| | |exact Ri].
    + destruct Ri as (w & E & V & _). symmetry in E. apply app_eq_nil in E. destruct E as (-> & _).
      exact (Pr [] v (proj2 (V v) eq_refl) eq_refl).
    + intros w r v E (s & m & -> & _ & H). symmetry in E. apply app_eq_nil in E. destruct E as (E & _).
      apply app_eq_nil in E. destruct E as (_ & ->). exact (Pr _ _ H eq_refl).
    + intros w r v E (s & m & -> & _ & H). symmetry in E. apply app_eq_nil in E. destruct E as (E & _).
      apply app_eq_nil in E. destruct E as (_ & ->). exact (Pr _ _ H eq_refl).
  - destruct (among [43; 45] c) eqn:Sc.
    + apply sign_iff in Sc. cbn [bind]. pose proof (R i) as Ri.
      assert (K : forall w' r' v' s m, c :: i = w' ++ r' -> w' = s ++ m -> signs s -> L m v' -> s = [c] /\ i = m ++ r').
      { intros w' r' v' s m E -> Hs H. destruct Hs as [->|[->| ->]]; cbn in E.
        - destruct m as [|d m]; [destruct (Pr _ _ H eq_refl)|]. cbn in E. injection E as <- E. destruct (St _ _ H c m eq_refl Sc).
        - injection E as -> ->. auto.
        - injection E as -> ->. auto. }
      destruct (p i) as [v r| | |].
      * destruct Ri as (w & -> & V & U). exists (c :: w). split; [reflexivity|split].
        -- intros v'. split.
           ++ intros (s & m & E & Hs & H). destruct (K (c :: w) r v' s m eq_refl E Hs H) as (-> & _). cbn in E. injection E as <-. apply V, H.
           ++ intros ->. exists [c], w. split; [reflexivity|split; [destruct Sc as [->| ->]; unfold signs; auto|apply V; reflexivity]].
        -- intros w' r' v' E' (s & m & E & Hs & H). destruct (K w' r' v' s m E' E Hs H) as (-> & Er). subst w'.
           pose proof (U _ _ _ Er H). cbn. lia.
      * intros w' r' v' E' (s & m & E & Hs & H). destruct (K w' r' v' s m E' E Hs H) as (-> & Er). exact (Ri _ _ _ Er H).
      * intros w' r' v' E' (s & m & E & Hs & H). destruct (K w' r' v' s m E' E Hs H) as (-> & Er). exact (Ri _ _ _ Er H).
      * apply (On [c]), Ri.
    + cbn [bind]. pose proof (R (c :: i)) as Ri.
      assert (K : forall w' r' v' s m, c :: i = w' ++ r' -> w' = s ++ m -> signs s -> L m v' -> s = []).
      { intros w' r' v' s m E -> Hs H. destruct Hs as [->|[->| ->]]; [reflexivity| |]; cbn in E; injection E as -> _; discriminate. }
      destruct (p (c :: i)) as [v r| | |].
      * destruct Ri as (w & Ew & V & U). exists w. split; [exact Ew|split].
        -- intros v'. rewrite <- V. split.
           ++ intros (s & m & E & Hs & H). rewrite (K _ _ _ _ _ Ew E Hs H) in E. cbn in E. subst m. exact H.
           ++ intros H. exists [], w. split; [reflexivity|split; [left; reflexivity|exact H]].
        -- intros w' r' v' E' (s & m & E & Hs & H). rewrite (K _ _ _ _ _ E' E Hs H) in E. cbn in E. subst m. eapply U; eassumption.
      * intros w' r' v' E' (s & m & E & Hs & H). rewrite (K _ _ _ _ _ E' E Hs H) in E. cbn in E. subst m. eapply Ri; eassumption.
      * intros w' r' v' E' (s & m & E & Hs & H). rewrite (K _ _ _ _ _ E' E Hs H) in E. cbn in E. subst m. eapply Ri; eassumption.
      * exact Ri.
Qed.

Lemma digits1_stops : forall w, digits1 w -> stops is_sign w.
Proof. intros w (Ne & F) c s -> [->| ->]; inversion F as [|? ? H]; subst; unfold digit in H; lia. Qed.
Lemma reads_digit1 : forall bad, reads bad digit1 (itself digits1).
Proof. intros bad. apply (reads_take1 is_digit digit digit_iff). Qed.
Definition exp_tail : str -> Prop := fun w => exists s d, w = s ++ d /\ signs s /\ digits1 d.
Lemma reads_exponent : reads never exponent (itself EXPONENT).
Proof.
  unfold exponent. eapply reads_equiv; [|apply reads_recognize, reads_bind;
    [apply never_on|apply (scan_satisfy never _ (fun c => c = 101 \/ c = 69)); intros c; rewrite among_In; cbn; intuition|
     intros a; apply reads_signed; [apply never_on|apply reads_digit1| |]]].
  - intros w v. unfold itself, EXPONENT, one. split.
    + intros (-> & x & w1 & w2 & e & -> & (-> & He) & s & m & -> & Hs & -> & Hd). split; [reflexivity|]. exists e, s, m. auto.
    + intros (-> & e & s & d & -> & He & Hs & Hd). split; [reflexivity|]. exists d, [e], (s ++ d), e.
      split; [reflexivity|split; [auto|]]. exists s, d. auto.
  - intros w v (_ & (H & _)) E. contradiction.
  - intros w v (_ & H). apply digits1_stops, H.
Qed.
Lemma exponent_stops : forall w, EXPONENT w -> stops digit w.
Proof. intros w (e & s & d & -> & [->| ->] & _) c t E H; cbn in E; injection E as <- _; unfold digit in H; lia. Qed.
Definition unsigned_double (m e : str) : Prop := EXPONENT e /\
  ((exists d f, m = d ++ [46] ++ f /\ digits1 d /\ digits0 f) \/ digits1 m \/ (exists d, m = [46] ++ d /\ digits1 d)).
Lemma dot_stops : forall P (w : str), ~ P 46 -> stops P (46 :: w).
Proof. intros P w H c s E. injection E as <- _. exact H. Qed.
Lemma not_dot : ~ digit 46. Proof. unfold digit. lia. Qed.
Lemma double1 : reads never (recognize (fun i => bind (digit1 i) (fun _ i => bind (is 46 i) (fun _ i => bind (digit0 i) (fun _ => exponent)))))
  (itself (fun w => exists d f e, w = d ++ [46] ++ f ++ e /\ digits1 d /\ digits0 f /\ EXPONENT e)).
Proof.
  eapply reads_equiv; [|apply reads_recognize; apply (reads_greedy1 is_digit digit digit_iff);
    [apply never_on|apply reads_bind; [apply never_on|apply scan_is|intros a; apply (reads_greedy is_digit digit digit_iff); [apply never_on|apply reads_exponent|]]|]].
  - intros w v. unfold itself. split.
    + intros (-> & x & d & m & -> & Hd & w1 & w2 & a & -> & (-> & ->) & f & e & -> & Hf & -> & He). split; [reflexivity|].
      exists d, f, e. auto.
    + intros (-> & d & f & e & -> & Hd & Hf & He). split; [reflexivity|]. exists e, d, ([46] ++ f ++ e).
      split; [reflexivity|split; [exact Hd|]]. exists [46], (f ++ e), 46. split; [reflexivity|split; [auto|]]. exists f, e. auto.
  - intros w v (_ & H). apply exponent_stops, H.
  - intros w v (w1 & w2 & a & -> & (-> & _) & _). cbn. apply dot_stops, not_dot.
Qed.
Lemma double2 : reads never (recognize (fun i => bind (is 46 i) (fun _ i => bind (digit1 i) (fun _ => exponent))))
  (itself (fun w => exists d e, w = [46] ++ d ++ e /\ digits1 d /\ EXPONENT e)).
Proof.
  eapply reads_equiv; [|apply reads_recognize; apply reads_bind; [apply never_on|apply scan_is|intros a;
    apply (reads_greedy1 is_digit digit digit_iff); [apply never_on|apply reads_exponent|]]].
  - intros w v. unfold itself. split.
    + intros (-> & x & w1 & w2 & a & -> & (-> & ->) & d & e & -> & Hd & -> & He). split; [reflexivity|]. exists d, e. auto.
    + intros (-> & d & e & -> & Hd & He). split; [reflexivity|]. exists e, [46], (d ++ e), 46.
      split; [reflexivity|split; [auto|]]. exists d, e. auto.
  - intros w v (_ & H). apply exponent_stops, H.
Qed.
Lemma double3 : reads never (recognize (fun i => bind (digit1 i) (fun _ => exponent)))
  (itself (fun w => exists d e, w = d ++ e /\ digits1 d /\ EXPONENT e)).
Proof.
  eapply reads_equiv; [|apply reads_recognize; apply (reads_greedy1 is_digit digit digit_iff); [apply never_on|apply reads_exponent|]].
  - intros w v. unfold itself. split.
    + intros (-> & x & d & e & -> & Hd & -> & He). split; [reflexivity|]. exists d, e. auto.
    + intros (-> & d & e & -> & Hd & He). split; [reflexivity|]. exists e, d, e. auto.
  - intros w v (_ & H). apply exponent_stops, H.
Qed.
(** Two runs of one text that stop are the same. *)
Lemma run_unique : forall P w r w' r', w ++ r = w' ++ r' -> Forall P w -> Forall P w' -> stops P r -> stops P r' -> w = w' /\ r = r'.
Proof.
  intros P w r w' r' E F F' St St'. apply app_cancel; [exact E|].
  pose proof (run_longest P _ _ _ _ E F' St). symmetry in E. pose proof (run_longest P _ _ _ _ E F St'). lia.
Qed.
Lemma exp_stops_app : forall e r, EXPONENT e -> stops digit (e ++ r).
Proof. intros e r (x & s & d & -> & [->| ->] & _) c t E H; cbn in E; injection E as <- _; unfold digit in H; lia. Qed.
Lemma exp_not_dot : forall e, EXPONENT e -> forall r t, e ++ r = 46 :: t -> False.
Proof. intros e (x & s & d & -> & [->| ->] & _) r t E; cbn in E; discriminate. Qed.

Lemma no_fail : forall A (p : parser A) L M, reads never p L -> (forall i, p i <> Fail) ->
  forall i, p i = Fail -> forall w r (v : A), i = w ++ r -> ~ (M : lang A) w v.
Proof. intros A p L M R H i E. destruct (H i E). Qed.

(** None of these readers fails for good. *)
Definition soft {A} (p : parser A) : Prop := forall i, p i <> Fail.
Lemma soft_bind : forall A B (p : parser A) (k : A -> parser B), soft p -> (forall a, soft (k a)) -> soft (fun i => bind (p i) k).
Proof. intros A B p k Hp Hk i. unfold bind. specialize (Hp i). destruct (p i); try discriminate; [apply Hk|congruence]. Qed.
Lemma soft_alt : forall A (p q : parser A), soft p -> soft q -> soft (alt p q).
Proof. intros A p q Hp Hq i. unfold alt. specialize (Hp i). destruct (p i); try discriminate; [apply Hq|congruence]. Qed.
Lemma soft_recognize : forall A (p : parser A), soft p -> soft (recognize p).
Proof. intros A p Hp i. unfold recognize. specialize (Hp i). destruct (p i); try discriminate; congruence. Qed.
Lemma soft_pmap : forall A B (f : A -> B) (p : parser A), soft p -> soft (pmap f p).
Proof. intros A B f p Hp i. unfold pmap. specialize (Hp i). destruct (p i); try discriminate; congruence. Qed.
Lemma soft_popt : forall A (p : parser A), soft p -> soft (popt p).
Proof. intros A p Hp i. unfold popt. specialize (Hp i). destruct (p i); try discriminate; congruence. Qed.
Lemma soft_satisfy : forall f, soft (satisfy f).
Proof. intros f [|c i]; cbn; [discriminate|]. destruct (f c); discriminate. Qed.
Lemma soft_take : forall f, soft (take_while f).
Proof. intros f i. induction i as [|c i IH]; cbn; [discriminate|]. destruct (f c); [|discriminate]. unfold pmap. destruct (take_while f i); congruence. Qed.
Lemma soft_take1 : forall f, soft (take_while1 f).
Proof. intros f i. unfold take_while1. pose proof (soft_take f i) as H. destruct (take_while f i) as [[|c w] r| | |]; congruence. Qed.
Lemma soft_tag : forall t, soft (tag t).
Proof. intros t i. destruct (tag_spec t i) as [(r & _ & ->)|(-> & _)]; discriminate. Qed.
#[export] Hint Resolve soft_bind soft_alt soft_recognize soft_pmap soft_popt soft_satisfy soft_take soft_take1 soft_tag : soft.
Lemma soft_is : forall c, soft (is c). Proof. intros c. apply soft_satisfy. Qed.
Lemma soft_one_of : forall s, soft (one_of s). Proof. intros c. apply soft_satisfy. Qed.
Lemma soft_exponent : soft exponent.
Proof. apply soft_recognize, soft_bind; [apply soft_one_of|intros _]. apply soft_bind; [apply soft_popt, soft_one_of|intros _; apply soft_take1]. Qed.
#[export] Hint Resolve soft_is soft_one_of soft_exponent : soft.

Definition core_double (w : str) : Prop := exists m e, w = m ++ e /\ unsigned_double m e.
Lemma soft_double1 : soft (recognize (fun i => bind (digit1 i) (fun _ i => bind (is 46 i) (fun _ i => bind (digit0 i) (fun _ => exponent))))).
Proof.
  apply soft_recognize, soft_bind; [apply soft_take1|intros _]. apply soft_bind; [apply soft_is|intros _].
  apply soft_bind; [apply soft_take|intros _; apply soft_exponent].
Qed.
Lemma soft_double2 : soft (recognize (fun i => bind (is 46 i) (fun _ i => bind (digit1 i) (fun _ => exponent)))).
Proof. apply soft_recognize, soft_bind; [apply soft_is|intros _]. apply soft_bind; [apply soft_take1|intros _; apply soft_exponent]. Qed.
Lemma reads_core_double : reads never
  (alt (recognize (fun i => bind (digit1 i) (fun _ i => bind (is 46 i) (fun _ i => bind (digit0 i) (fun _ => exponent)))))
   (alt (recognize (fun i => bind (is 46 i) (fun _ i => bind (digit1 i) (fun _ => exponent))))
        (recognize (fun i => bind (digit1 i) (fun _ => exponent))))) (itself core_double).
Proof.
  eapply reads_equiv; [|apply reads_alt; [apply double1|apply reads_alt; [apply double2|apply double3|..]|..]].
  - intros w v. unfold either, itself, core_double, unsigned_double. split.
    + intros [(-> & d & f & e & -> & Hd & Hf & He)|[(-> & d & e & -> & Hd & He)|(-> & d & e & -> & Hd & He)]]; (split; [reflexivity|]).
      * exists (d ++ [46] ++ f), e. split; [rewrite <- !app_assoc; reflexivity|]. split; [exact He|]. left. eauto.
      * exists ([46] ++ d), e. split; [rewrite <- !app_assoc; reflexivity|]. split; [exact He|]. right; right. eauto.
      * exists d, e. split; [reflexivity|]. split; [exact He|]. auto.
    + intros (-> & m & e & -> & He & [(d & f & -> & Hd & Hf)|[Hd|(d & -> & Hd)]]).
      * left. split; [reflexivity|]. exists d, f, e. rewrite <- !app_assoc. auto.
      * right; right. split; [reflexivity|]. eauto.
      * right; left. split; [reflexivity|]. exists d, e. rewrite <- !app_assoc. auto.
  - intros w1 r1 w2 r2 v1 v2 E (_ & d & e & -> & _ & _) (_ & d' & e' & -> & (Ne & Hd) & _). exfalso.
    destruct d' as [|c d']; [congruence|]. cbn in E. injection E as <- E. inversion Hd; subst. apply not_dot. assumption.
  - intros i E. destruct (soft_double2 i E).
  - intros w1 r1 w2 r2 v1 v2 E (_ & d & f & e & -> & (Ne & Hd) & Hf & He) [(_ & d' & e' & -> & _)|(_ & d' & e' & -> & (Ne' & Hd') & He')]; exfalso.
    + destruct d as [|c d]; [destruct (Ne eq_refl)|]. cbn in E. injection E as -> E. inversion Hd; subst. apply not_dot. assumption.
    + rewrite <- !app_assoc in E. cbn [app] in E.
      destruct (run_unique digit _ _ _ _ E Hd Hd' (dot_stops _ _ not_dot) (exp_stops_app _ _ He')) as (_ & E2).
      symmetry in E2. exact (exp_not_dot _ He' _ _ E2).
  - intros i E. destruct (soft_double1 i E).
Qed.
Lemma reads_double : reads never double_raw (fun w x => x = (w, Double) /\ DOUBLE w).
Proof.
  unfold double_raw. eapply reads_equiv; [|apply reads_pmap, reads_recognize, reads_signed; [apply never_on|apply reads_core_double| |]].
  - intros w x. unfold itself, DOUBLE, core_double. split.
    + intros (a & -> & -> & y & s & m & -> & Hs & -> & m' & e & -> & He & H). split; [reflexivity|]. exists s, m', e. auto.
    + intros (-> & s & m & e & -> & Hs & He & H). exists (s ++ m ++ e). split; [reflexivity|split; [reflexivity|]].
      exists (m ++ e), s, (m ++ e). split; [reflexivity|split; [exact Hs|split; [reflexivity|]]]. exists m, e. unfold unsigned_double. auto.
  - intros w v (_ & m & e & -> & (x & s & d & -> & _) & _). destruct m; discriminate.
  - intros w v (_ & m & e & -> & He & H) c t E Hc. destruct H as [(d & f & -> & (Ne & Hd) & _)|[(Ne & Hd)|(d & -> & _)]].
    + destruct d as [|x d]; [destruct (Ne eq_refl)|]. cbn in E. injection E as -> _. inversion Hd; subst. destruct Hc as [->| ->]; unfold digit in *; lia.
    + destruct m as [|x d]; [destruct (Ne eq_refl)|]. cbn in E. injection E as -> _. inversion Hd; subst. destruct Hc as [->| ->]; unfold digit in *; lia.
    + cbn in E. injection E as <- _. destruct Hc; discriminate.
Qed.
Lemma reads_decimal : reads never decimal_raw (fun w x => x = (w, Decimal) /\ DECIMAL w).
Proof.
  unfold decimal_raw. eapply reads_equiv; [|apply reads_pmap, reads_recognize, reads_signed; [apply never_on|
    apply (reads_greedy is_digit digit digit_iff); [apply never_on|apply reads_bind; [apply never_on|apply scan_is|intros a; apply reads_digit1]|]| |]].
  - intros w x. unfold itself, DECIMAL. split.
    + intros (a & -> & -> & y & s & m & -> & Hs & d & m2 & -> & Hd & w1 & w2 & b & -> & (-> & ->) & -> & Hf).
      split; [reflexivity|]. exists s, d, w2. auto.
    + intros (-> & s & d & f & -> & Hs & Hd & Hf). exists (s ++ d ++ [46] ++ f). split; [reflexivity|split; [reflexivity|]].
      exists f, s, (d ++ [46] ++ f). split; [reflexivity|split; [exact Hs|]]. exists d, ([46] ++ f). split; [reflexivity|split; [exact Hd|]].
      exists [46], f, 46. auto.
  - intros w v (w1 & w2 & a & -> & (-> & _) & _). cbn. apply dot_stops, not_dot.
  - intros w v (d & m & -> & _ & w1 & w2 & b & -> & (-> & _) & _). destruct d; discriminate.
  - intros w v (d & m & -> & Hd & w1 & w2 & b & -> & (-> & _) & _) c t E Hc. destruct d as [|x d]; cbn in E.
    + injection E as <- _. destruct Hc; discriminate.
    + injection E as -> _. inversion Hd; subst. destruct Hc as [->| ->]; unfold digit in *; lia.
Qed.
Lemma reads_integer : reads never integer_raw (fun w x => x = (w, Integer) /\ INTEGER w).
Proof.
  unfold integer_raw. eapply reads_equiv; [|apply reads_pmap, reads_recognize, reads_signed; [apply never_on|apply reads_digit1| |]].
  - intros w x. unfold itself, INTEGER. split.
    + intros (a & -> & -> & y & s & m & -> & Hs & -> & Hd). split; [reflexivity|]. eauto.
    + intros (-> & s & d & -> & Hs & Hd). exists (s ++ d). split; [reflexivity|split; [reflexivity|]]. exists d, s, d. auto.
  - intros w v (_ & (H & _)) E. contradiction.
  - intros w v (_ & H). apply digits1_stops, H.
Qed.
(** The characters of a number up to its dot, and up to its exponent. *)
Definition whole (c : char) : Prop := is_sign c \/ digit c.
Definition mantissa (c : char) : Prop := whole c \/ c = 46.
Lemma signs_whole : forall s, signs s -> Forall whole s.
Proof. intros s [->|[->| ->]]; [constructor| |]; (constructor; [left; unfold is_sign; auto|constructor]). Qed.
Lemma digits_whole : forall d, Forall digit d -> Forall whole d.
Proof. intros d H. eapply Forall_impl; [|exact H]. intros c K. right. exact K. Qed.
Lemma whole_mantissa : forall d, Forall whole d -> Forall mantissa d.
Proof. intros d H. eapply Forall_impl; [|exact H]. intros c K. left. exact K. Qed.
Lemma integer_whole : forall w, INTEGER w -> Forall whole w.
Proof. intros w (s & d & -> & Hs & (_ & Hd)). apply Forall_app. split; [apply signs_whole, Hs|apply digits_whole, Hd]. Qed.
Lemma decimal_mantissa : forall w, DECIMAL w -> Forall mantissa w.
Proof.
  intros w (s & d & f & -> & Hs & Hd & (_ & Hf)). rewrite !Forall_app. split; [apply whole_mantissa, signs_whole, Hs|].
  split; [apply whole_mantissa, digits_whole, Hd|]. split; [constructor; [right; reflexivity|constructor]|apply whole_mantissa, digits_whole, Hf].
Qed.
Lemma decimal_split : forall w, DECIMAL w -> exists a b, w = a ++ 46 :: b.
Proof. intros w (s & d & f & -> & _). exists (s ++ d), f. cbn. rewrite <- app_assoc. reflexivity. Qed.
Lemma double_split : forall w, DOUBLE w -> exists a x b, w = a ++ x :: b /\ (x = 101 \/ x = 69).
Proof.
  intros w (s & m & e & -> & _ & (x & t & d & -> & Hx & _) & _). exists (s ++ m), x, (t ++ d). cbn. rewrite <- app_assoc. auto.
Qed.
Lemma integer_mantissa : forall w, INTEGER w -> Forall mantissa w.
Proof. intros w H. apply whole_mantissa, integer_whole, H. Qed.
(** A word of such characters ends before one that is none. *)
Lemma before : forall (P : char -> Prop) w1 r1 w2 r2 a c b, w1 ++ r1 = w2 ++ r2 -> w1 = a ++ c :: b -> ~ P c -> Forall P w2 ->
  (length w2 < length w1)%nat.
Proof.
  intros P w1 r1 w2 r2 a c b E -> N F. rewrite <- app_assoc in E. symmetry in E. cbn [app] in E.
  assert (H : (length w2 <= length a)%nat); [|rewrite app_length; cbn; lia].
  eapply run_longest; [symmetry; exact E|exact F|]. intros x s Ex. injection Ex as <- _. exact N.
Qed.
Lemma soft_double : soft double_raw.
Proof.
  apply soft_pmap, soft_recognize, soft_bind; [apply soft_popt, soft_one_of|intros _]. apply soft_alt; [apply soft_double1|].
  apply soft_alt; [apply soft_double2|]. apply soft_recognize, soft_bind; [apply soft_take1|intros _; apply soft_exponent].
Qed.
Lemma soft_decimal : soft decimal_raw.
Proof.
  apply soft_pmap, soft_recognize, soft_bind; [apply soft_popt, soft_one_of|intros _]. apply soft_bind; [apply soft_take|intros _].
  apply soft_bind; [apply soft_is|intros _; apply soft_take1].
Qed.
Lemma soft_integer : soft integer_raw.
Proof. apply soft_pmap, soft_recognize, soft_bind; [apply soft_popt, soft_one_of|intros _; apply soft_take1]. Qed.
Theorem reads_number : reads never numeric_literal NUMBER.
Proof.
  unfold numeric_literal. eapply reads_equiv; [|apply reads_alt; [apply reads_double|apply reads_alt; [apply reads_decimal|apply reads_integer|..]|..]].
  - intros w [s k]. unfold either, NUMBER. cbn [fst snd]. split.
    + intros [(E & H)|[(E & H)|(E & H)]]; injection E as -> ->; auto.
    + intros (-> & H). destruct k; auto.
  - intros w1 r1 w2 r2 v1 v2 E (_ & H1) (_ & H2). destruct (decimal_split _ H1) as (a & b & Ew).
    eapply (before whole); [exact E|exact Ew| |apply integer_whole, H2]. intros [[H|H]|H]; [discriminate|discriminate|]. unfold digit in H. lia.
  - intros i E. destruct (soft_decimal i E).
  - intros w1 r1 w2 r2 v1 v2 E (_ & H1) H2. destruct (double_split _ H1) as (a & x & b & Ew & Hx).
    eapply (before mantissa); [exact E|exact Ew| |].
    + intros [[[H|H]|H]|H]; [destruct Hx; subst; discriminate|destruct Hx; subst; discriminate|unfold digit in H; destruct Hx; subst; lia|destruct Hx; subst; discriminate].
    + destruct H2 as [(_ & H2)|(_ & H2)]; [apply decimal_mantissa, H2|apply integer_mantissa, H2].
  - intros i E. destruct (soft_double i E).
Qed.

(** * Repetitions of longest words *)

Lemma reads_many : forall A bad (p : parser A) L, onward bad -> reads bad p L -> soft p -> proper L ->
  (forall w1 r1 w2 r2 v1 v2, w1 ++ r1 = w2 ++ r2 -> L w1 v1 -> L w2 v2 -> (length w1 < length w2)%nat -> forall w r v, r1 = w ++ r -> ~ L w v) ->
  reads bad (many0 p) (star L).
Proof.
  intros A bad p L On R So Pr D i. unfold many0. assert (H : (length i < S (length i))%nat) by lia. revert H.
  generalize (S (length i)) as n. intros n. revert i. induction n as [|n IH]; intros i H; [lia|]. cbn [many].
  pose proof (R i) as Ri. pose proof (So i) as Si. destruct (p i) as [v r| | |]; [| |congruence|].
  - destruct Ri as (w & E & V & U). assert (Lw : L w v) by (apply V; reflexivity). assert (Hl : (length r < length i)%nat).
    { subst i. rewrite app_length. destruct w as [|c w]; [destruct (Pr _ _ Lw eq_refl)|cbn; lia]. }
    destruct (Nat.eqb_spec (length r) (length i)); [lia|]. unfold pmap. specialize (IH r ltac:(lia)).
    destruct (many n p r) as [vs r2| | |].
    + destruct IH as (w2 & E2 & V2 & U2).
      assert (K : forall w' r' vs', i = w' ++ r' -> star L w' vs' ->
        (length w' <= length w)%nat /\ (w2 = [] -> w' = w -> vs' = [v]) /\ (w2 <> [] -> (length w' < length (w ++ w2))%nat) \/
        exists u us, w' = w ++ u /\ r = u ++ r' /\ vs' = v :: us /\ star L u us).
      { intros w' r' vs' E' St'. destruct St' as [|u x us xs Lu Su].
        - left. split; [cbn; lia|split].
          + intros _ <-. destruct (Pr _ _ Lw eq_refl).
          + intros _. rewrite app_length. destruct w as [|c w]; [destruct (Pr _ _ Lw eq_refl)|cbn; lia].
        - rewrite <- app_assoc in E'. pose proof (U _ _ _ E' Lu) as Hu. destruct (Nat.eq_dec (length u) (length w)) as [Eq|Ne].
          + right. destruct (app_cancel u w (us ++ r') r ltac:(congruence) Eq) as (-> & Er). apply V in Lu. subst x. exists us, xs. auto.
          + left. assert (us = []) as ->.
            { destruct Su as [|y z ys zs Ly Sy]; [reflexivity|exfalso]. rewrite <- app_assoc in E'.
              eapply (D u _ w r x v); [rewrite <- E'; exact E|exact Lu|exact Lw|lia|reflexivity|exact Ly]. }
            rewrite app_nil_r. split; [exact Hu|split; [intros _ E3; subst u; lia|]]. intros _. rewrite app_length. lia. }
      exists (w ++ w2). split; [subst; apply app_assoc|split].
      * intros v'. split; [|intros ->; constructor; [exact Lw|apply V2; reflexivity]].
        intros St'. destruct (K (w ++ w2) r2 v' ltac:(subst; apply app_assoc) St') as [(H1 & H2 & H3)|(u & us & E4 & E5 & -> & Su)].
        -- rewrite app_length in H1. destruct w2 as [|c w2]; [|cbn in H1; lia]. rewrite (H2 eq_refl (app_nil_r w)).
           f_equal. specialize (V2 []). apply (proj1 V2). constructor.
        -- apply app_inv_head in E4. subst u. f_equal. apply V2, Su.
      * intros w' r' v' E' St'. destruct (K _ _ _ E' St') as [(H1 & H2 & H3)|(u & us & -> & E5 & -> & Su)].
        -- rewrite app_length. lia.
        -- pose proof (U2 _ _ _ E5 Su). rewrite !app_length. lia.
    + destruct (IH [] r [] eq_refl (star_nil _)).
    + destruct (IH [] r [] eq_refl (star_nil _)).
    + subst i. apply On, IH.
  - exists []. split; [reflexivity|split].
    + intros v'. split; [|intros ->; constructor]. intros St'. inversion St' as [E1 E2|u x us xs Lu Su E1]; [reflexivity|].
      apply app_eq_nil in E1. destruct E1 as (-> & _). destruct (Pr _ _ Lu eq_refl).
    + intros w' r' vs' E' St'. destruct St' as [|u x us xs Lu Su]; [lia|]. exfalso. rewrite <- app_assoc in E'. exact (Ri _ _ _ E' Lu).
  - exact Ri.
Qed.

(** * Language tags *)

Lemma alnum_iff : forall c, is_alphanum c = true <-> alnum c.
Proof. intros c. unfold is_alphanum, alnum. rewrite orb_true_iff, letter_iff, digit_iff. tauto. Qed.
Definition subtag0 : lang str := fun w v => w = 45 :: v /\ v <> [] /\ Forall alnum v.
Lemma reads_subtag : reads never (fun i => bind (tag [45] i) (fun _ => take_while1 is_alphanum)) subtag0.
Proof.
  eapply reads_equiv; [|apply reads_bind; [apply never_on|apply scan_tag|intros a; apply (reads_take1 is_alphanum alnum alnum_iff)]].
  intros w v. unfold subtag0, itself. split.
  - intros (w1 & w2 & a & -> & (-> & ->) & -> & H). auto.
  - intros (-> & H). exists [45], v, [45]. auto.
Qed.
Lemma star_subtag : forall b, (exists vs, star subtag0 b vs) <-> (exists vs, star SUBTAG b vs).
Proof.
  intros b. split; intros (vs & St).
  - induction St as [|w v ws vs (-> & H) St (us & IH)]; [exists []; constructor|]. exists ((45 :: v) :: us).
    constructor; [|exact IH]. split; [reflexivity|]. eauto.
  - induction St as [|w v ws vs (-> & t & -> & H) St (us & IH)]; [exists []; constructor|]. exists (t :: us).
    constructor; [|exact IH]. split; auto.
Qed.
Lemma star_subtag_first : forall b vs, star subtag0 b vs -> b = [] \/ exists t, b = 45 :: t.
Proof. intros b vs St. destruct St as [|w v ws vs (-> & _) St]; [auto|]. right. cbn. eauto. Qed.
Theorem reads_lang_tag : reads never lang_tag LANGTAG.
Proof.
  unfold lang_tag. eapply reads_equiv; [|apply reads_bind; [apply never_on|apply scan_tag|intros a; apply reads_recognize;
    apply (reads_greedy1 is_alpha letter letter_iff); [apply never_on|apply reads_many; [apply never_on|apply reads_subtag| | |]|]]].
  - intros w v. unfold LANGTAG. split.
    + intros (w1 & w2 & a & -> & (-> & ->) & -> & x & l & b & -> & (Ne & Hl) & St). split; [reflexivity|].
      destruct (proj1 (star_subtag b) (ex_intro _ x St)) as (vs & Sv). exists l, b, vs. auto.
    + intros (-> & l & b & vs & -> & Ne & Hl & St). destruct (proj2 (star_subtag b) (ex_intro _ vs St)) as (x & Sx).
      exists [64], (l ++ b), [64]. split; [reflexivity|split; [auto|split; [reflexivity|]]]. exists x, l, b. auto.
  - apply soft_bind; [apply soft_tag|intros _; apply soft_take1].
  - intros w v (-> & _). discriminate.
  - intros w1 r1 w2 r2 v1 v2 E (-> & Ne1 & H1) (-> & Ne2 & H2) Hl w r v -> (-> & _). cbn in *.
    injection E as E. destruct (app_short _ _ _ _ E ltac:(lia)) as ([|c m] & -> & Er); [rewrite app_nil_r in Hl; lia|].
    cbn in Er. injection Er as <- _. apply Forall_app in H2. destruct H2 as (_ & H2). inversion H2 as [|? ? K]; subst.
    destruct K as [[K|K]|K]; unfold digit in *; lia.
  - intros w v St c s E Hc. apply star_subtag_first in St. destruct St as [->|(t & ->)]; [discriminate|]. injection E as <- _.
    destruct Hc; lia.
Qed.
