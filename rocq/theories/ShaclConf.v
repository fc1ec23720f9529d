(** Validation without a cache finds nothing exactly when the focus node conforms to the shape. *)
From Coq Require Import List Bool NArith ZArith Permutation Lia Arith.
Import ListNotations.
From Verif Require Import PathModel PathSpec PathLemmas ProgModel ProgLemmas ShaclModel ShaclSpec ShaclLemmas.

Lemma flat_map_nil {A B} (f : A -> list B) l : flat_map f l = [] <-> forall x, In x l -> f x = [].
Proof.
  induction l as [|x l IH]; cbn; [split; [intros _ y []|reflexivity]|]. split.
  - intro H. apply app_eq_nil in H. destruct H as [H1 H2]. intros y [<-|Y]; [exact H1|]. apply IH; assumption.
  - intro H. rewrite (H x (or_introl eq_refl)). apply IH. intros y Y. apply H. right. exact Y.
Qed.
Lemma app_nil_iff {A} (a b : list A) : a ++ b = [] <-> a = [] /\ b = [].
Proof. split; [apply app_eq_nil|intros [-> ->]; reflexivity]. Qed.
Lemma forallb_false {A} (f : A -> bool) l : forallb f l = false <-> exists x, In x l /\ f x = false.
Proof.
  induction l as [|x l IH]; cbn; [split; [discriminate|intros (x & [] & _)]|]. rewrite andb_false_iff, IH. split.
  - intros [H|(y & Y & H)]; [exists x; auto|exists y; auto].
  - intros (y & [<-|Y] & H); [left; exact H|right; exists y; auto].
Qed.
Lemma length_filter_one {A} (f : A -> bool) l : length (filter f l) = 1 <->
  exists l1 x l2, l = l1 ++ x :: l2 /\ f x = true /\ forall y, In y (l1 ++ l2) -> f y = false.
Proof.
  split.
  - induction l as [|x l IH]; cbn; [discriminate|]. destruct (f x) eqn:E; cbn [length].
    + intro H. injection H as H. exists [], x, l. split; [reflexivity|]. split; [exact E|]. cbn. intros y Y. destruct (f y) eqn:Ey; [|reflexivity].
      exfalso. assert (K : In y (filter f l)) by (apply filter_In; auto). destruct (filter f l); [destruct K|discriminate].
    + intro H. destruct (IH H) as (l1 & z & l2 & -> & Hz & Hy). exists (x :: l1), z, l2. split; [reflexivity|]. split; [exact Hz|].
      intros y [<-|Y]; [exact E|apply Hy, Y].
  - intros (l1 & x & l2 & -> & Hx & Hy). rewrite filter_app. cbn [filter]. rewrite Hx.
    assert (N : forall m, (forall y, In y m -> f y = false) -> filter f m = []).
    { induction m as [|z m IH]; intro H; [reflexivity|]. cbn. rewrite (H z (or_introl eq_refl)). apply IH. intros y Y. apply H. right. exact Y. }
    rewrite (N l1), (N l2); [reflexivity| |]; intros y Y; apply Hy, in_or_app; auto.
Qed.
Lemma nodup_filter {A} (f : A -> bool) l : NoDup l -> NoDup (filter f l).
Proof. induction 1; cbn; [constructor|]. destruct (f x); [|assumption]. constructor; [|assumption]. intro K. apply filter_In in K. tauto. Qed.

Lemma and_iff (A B A' B' : Prop) : (A <-> A') -> (B <-> B') -> (A /\ B <-> A' /\ B').
Proof. tauto. Qed.

Section Count.
  Variable P : term -> Prop.
  Variable l : list term.
  Hypothesis N : NoDup l.
  Hypothesis H : forall v, In v l <-> P v.
  Lemma at_least_length m : at_least m P <-> (m <= Z.of_nat (length l))%Z.
  Proof.
    split.
    - intros (k & Nk & Hk & L). assert (length k <= length l); [|lia]. apply NoDup_incl_length; [exact Nk|]. intros v V. apply H, Hk, V.
    - intro L. exists l. split; [exact N|]. split; [|exact L]. intros v V. apply H, V.
  Qed.
  Lemma at_most_length m : at_most m P <-> (Z.of_nat (length l) <= m)%Z.
  Proof.
    split.
    - intro K. apply K; [exact N|]. intros v V. apply H, V.
    - intros L k Nk Hk. assert (length k <= length l); [|lia]. apply NoDup_incl_length; [exact Nk|]. intros v V. apply H, Hk, V.
  Qed.
End Count.

Section Conf.
  Variable W : world.
  Variable sch : schema.
  Variable rank : nat -> nat.
  Variable start : nat -> term -> Prop.
  Hypothesis F : fine W sch rank start.
  Hypothesis PL : plain W sch start.
  Variable C : nat -> term -> Prop.
  Hypothesis HC : conformance W sch C.
  Notation ask := (asked (w_graph W) sch start).
  Notation V := (V W sch rank).

  Lemma objects_of_in t p w : In w (objects_of W t p) <-> In (t, p, w) (w_graph W).
  Proof.
    unfold objects_of. rewrite in_map_iff. split.
    - intros ([[a b] c] & <- & K). apply filter_In in K. destruct K as [K1 K2]. cbn in K2. apply andb_true_iff in K2. destruct K2 as [K2 K3].
      apply term_eqb_eq in K2. apply N.eqb_eq in K3. subst. exact K1.
    - intro K. exists (t, p, w). split; [reflexivity|]. apply filter_In. split; [exact K|]. cbn. rewrite (proj2 (term_eqb_eq t t) eq_refl), N.eqb_refl. reflexivity.
  Qed.
  Lemma triples_of_in t tr : In tr (triples_of W t) <-> In tr (w_graph W) /\ fst (fst tr) = t.
  Proof. unfold triples_of. rewrite filter_In. rewrite term_eqb_eq. reflexivity. Qed.
  Lemma each_nil s o tg vs b : each W s o tg vs b = [] <-> forall v, In v vs -> b v = false.
  Proof.
    unfold each. rewrite flat_map_nil. split; intros H v Hv; specialize (H v Hv); destruct (b v); try reflexivity; discriminate.
  Qed.
  Lemma if_nil {A} (b : bool) (x : A) : (if b then [x] else []) = [] <-> b = false.
  Proof. destruct b; split; congruence. Qed.

  Lemma langs_in vs n : In n (langs W vs) <-> exists v, In v vs /\ lang_of W v = Some n.
  Proof.
    induction vs as [|v vs IH]; cbn; [split; [intros []|intros (v & [] & _)]|]. destruct (lang_of W v) as [m|] eqn:E.
    - cbn. rewrite IH. split.
      + intros [<-|(w & Hw & L)]; [exists v; auto|exists w; auto].
      + intros (w & [<-|Hw] & L); [left; congruence|right; exists w; auto].
    - rewrite IH. split; [intros (w & Hw & L); exists w; auto|]. intros (w & [<-|Hw] & L); [congruence|exists w; auto].
  Qed.
  Lemma repeated_nil vs : NoDup vs -> (repeated W vs = [] <-> forall v w n, In v vs -> In w vs -> lang_of W v = Some n -> lang_of W w = Some n -> v = w).
  Proof.
    intro N. assert (A : repeated W vs = [] <-> forall n, count n (langs W vs) <= 1).
    { unfold repeated. split.
      - intros H n. destruct (1 <? count n (langs W vs)) eqn:E; [|apply Nat.ltb_ge in E; exact E]. exfalso.
        assert (K : In n (filter (fun n => 1 <? count n (langs W vs)) (nodup N.eq_dec (langs W vs)))).
        { apply filter_In. split; [|exact E]. apply nodup_In. apply Nat.ltb_lt in E. unfold count in E.
          destruct (filter (N.eqb n) (langs W vs)) as [|m l] eqn:X; [cbn in E; lia|]. assert (Y : In m (filter (N.eqb n) (langs W vs))) by (rewrite X; left; reflexivity).
          apply filter_In in Y. destruct Y as [Y1 Y2]. apply N.eqb_eq in Y2. subst. exact Y1. }
        rewrite H in K. destruct K.
      - intro H. destruct (filter _ _) as [|n l] eqn:X; [reflexivity|]. exfalso. assert (Y : In n (filter (fun n => 1 <? count n (langs W vs)) (nodup N.eq_dec (langs W vs)))) by (rewrite X; left; reflexivity).
        apply filter_In in Y. destruct Y as [_ Y]. apply Nat.ltb_lt in Y. specialize (H n). lia. }
    rewrite A. clear A. induction N as [|x vs X N IH]; [split; [intros _ v w n []|cbn; lia]|]. split.
    - intros H v w n Hv Hw Lv Lw.
      assert (IH' : forall n, count n (langs W vs) <= 1).
      { intro m. specialize (H m). cbn [langs] in H. destruct (lang_of W x); [|exact H]. unfold count in *. cbn in H. destruct (N.eqb m n0); cbn [length] in H; lia. }
      assert (Z : forall y, In y vs -> lang_of W x = Some n -> lang_of W y = Some n -> False).
      { intros y Hy Lx Ly. specialize (H n). cbn [langs] in H. rewrite Lx in H. unfold count in H. cbn in H. rewrite N.eqb_refl in H. cbn [length] in H.
        assert (K : In n (filter (N.eqb n) (langs W vs))) by (apply filter_In; split; [apply langs_in; exists y; auto|apply N.eqb_refl]).
        destruct (filter (N.eqb n) (langs W vs)); [destruct K|cbn in H; lia]. }
      destruct Hv as [<-|Hv], Hw as [<-|Hw]; [reflexivity|destruct (Z w Hw Lv Lw)|destruct (Z v Hv Lw Lv)|]. apply (proj1 IH IH' v w n); assumption.
    - intros H n. assert (IH' : count n (langs W vs) <= 1).
      { apply IH. intros v w m Hv Hw. apply H; right; assumption. }
      cbn [langs]. destruct (lang_of W x) as [m|] eqn:E; [|exact IH']. unfold count in *. cbn. destruct (N.eqb n m) eqn:Y; [|exact IH']. apply N.eqb_eq in Y. subst m. cbn [length].
      destruct (filter (N.eqb n) (langs W vs)) as [|k l] eqn:Z; [cbn; lia|]. exfalso. assert (K : In k (filter (N.eqb n) (langs W vs))) by (rewrite Z; left; reflexivity).
      apply filter_In in K. destruct K as [K1 K2]. apply N.eqb_eq in K2. subst k. apply langs_in in K1. destruct K1 as (y & Hy & Ly).
      apply X. rewrite (H x y n (or_introl eq_refl) (or_intror Hy) E Ly). exact Hy.
  Qed.

  Section Component.
    Variable i : nat.
    Variable s : shape.
    Hypothesis G : get_shape sch i = Some s.
    Variable t o : term.
    Hypothesis A : ask i t.
    Hypothesis O : object_of W t = Some o.
    Variable vs : list term.
    Hypothesis N : NoDup vs.
    Hypothesis Hv : forall v, In v vs <-> value_node (w_graph W) s t v.

    Lemma satisfied c : In c (s_comps s) -> (forall j v, In j (comp_refs c) -> In v vs -> ok V j v = true <-> C j v) ->
      ceval W V s c t o vs = [] <-> satisfies W C s c t.
    Proof.
      intros I K.
      assert (KF : forall j v, In j (comp_refs c) -> In v vs -> ok V j v = false <-> ~ C j v).
      { intros j v J Jv. rewrite <- (K j v J Jv). destruct (ok V j v); split; congruence. }
      destruct c as [l|l|l|j|j|j sib qmin qmax|n|n|w|l|p|p|b p|b|b|k]; cbn [ceval satisfies comp_refs] in *.
      - rewrite each_nil. split.
        + intros H v Nv j J. apply Hv in Nv. specialize (H v Nv). apply negb_false_iff in H. rewrite forallb_forall in H. apply (K j v J Nv), H, J.
        + intros H v Iv. apply negb_false_iff, forallb_forall. intros j J. apply (K j v J Iv), H; [apply Hv, Iv|exact J].
      - rewrite each_nil. split.
        + intros H v Nv. apply Hv in Nv. specialize (H v Nv). apply negb_false_iff, existsb_exists in H. destruct H as (j & J & H). exists j. split; [exact J|]. apply (K j v J Nv), H.
        + intros H v Iv. apply negb_false_iff, existsb_exists. destruct (H v (proj1 (Hv v) Iv)) as (j & J & X). exists j. split; [exact J|]. apply (K j v J Iv), X.
      - rewrite each_nil.
        assert (E : forall v, In v vs -> negb (Nat.eqb (length (filter (fun j => ok V j v) l)) 1) = false <->
          exists l1 j l2, l = l1 ++ j :: l2 /\ C j v /\ forall k, In k (l1 ++ l2) -> ~ C k v).
        { intros v Iv. rewrite negb_false_iff, Nat.eqb_eq, length_filter_one. split; intros (l1 & j & l2 & E & H1 & H2); exists l1, j, l2; (split; [exact E|]).
          - split; [apply (K j v); [subst l; apply in_elt|exact Iv|exact H1]|]. intros k Hk. apply KF; [subst l; apply in_app_or in Hk; apply in_or_app; cbn; tauto|exact Iv|apply H2, Hk].
          - split; [apply (K j v); [subst l; apply in_elt|exact Iv|exact H1]|]. intros k Hk. apply KF; [subst l; apply in_app_or in Hk; apply in_or_app; cbn; tauto|exact Iv|apply H2, Hk]. }
        split; intros H v Iv.
        + apply (proj1 (E v (proj2 (Hv v) Iv))), H, Hv, Iv.
        + apply (proj2 (E v Iv)), H, Hv, Iv.
      - rewrite each_nil. split.
        + intros H v Nv. apply Hv in Nv. apply (KF j v (or_introl eq_refl) Nv), H, Nv.
        + intros H v Iv. apply (KF j v (or_introl eq_refl) Iv), H, Hv, Iv.
      - rewrite each_nil. split.
        + intros H v Nv. apply Hv in Nv. apply (K j v (or_introl eq_refl) Nv). specialize (H v Nv). apply negb_false_iff in H. exact H.
        + intros H v Iv. apply negb_false_iff. apply (K j v (or_introl eq_refl) Iv), H, Hv, Iv.
      - set (m := filter (fun v => ok V j v && forallb (fun k => negb (ok V k v)) sib) vs).
        assert (Nm : NoDup m) by (apply nodup_filter, N).
        assert (Hm : forall v, In v m <-> value_node (w_graph W) s t v /\ C j v /\ forall k, In k sib -> ~ C k v).
        { intro v. unfold m. rewrite filter_In, Hv. split.
          - intros [H1 H2]. apply andb_true_iff in H2. destruct H2 as [H2 H3]. pose proof (proj2 (Hv v) H1) as Iv. split; [exact H1|]. split; [apply (K j v (or_introl eq_refl) Iv), H2|].
            intros k Hk. apply (KF k v (or_intror Hk) Iv). rewrite forallb_forall in H3. apply negb_true_iff, H3, Hk.
          - intros (H1 & H2 & H3). pose proof (proj2 (Hv v) H1) as Iv. split; [exact H1|]. apply andb_true_iff. split; [apply (K j v (or_introl eq_refl) Iv), H2|].
            apply forallb_forall. intros k Hk. apply negb_true_iff. apply (KF k v (or_intror Hk) Iv), H3, Hk. }
        rewrite app_nil_iff. apply and_iff.
        + destruct qmin as [q|]; [|split; [intros _ x X; discriminate|reflexivity]]. rewrite if_nil, Z.ltb_ge. rewrite <- (at_least_length _ m Nm Hm q).
          split; [intros H x X; injection X as <-; exact H|intro H; apply H; reflexivity].
        + destruct qmax as [q|]; [|split; [intros _ x X; discriminate|reflexivity]]. rewrite if_nil, Z.ltb_ge. rewrite <- (at_most_length _ m Nm Hm q).
          split; [intros H x X; injection X as <-; exact H|intro H; apply H; reflexivity].
      - rewrite (at_least_length _ vs N Hv). destruct (Nat.eqb n 0) eqn:E; [apply Nat.eqb_eq in E; split; [lia|reflexivity]|]. rewrite if_nil, Nat.ltb_ge. lia.
      - rewrite (at_most_length _ vs N Hv). rewrite if_nil, Nat.ltb_ge. lia.
      - rewrite if_nil, negb_false_iff, tmem_spec. apply Hv.
      - rewrite each_nil. split.
        + intros H v Nv. apply Hv in Nv. apply tmem_spec, negb_false_iff, H, Nv.
        + intros H v Iv. apply negb_false_iff, tmem_spec, H, Hv, Iv.
      - assert (NL : ~ literal t) by (apply (plain_equals _ _ _ PL i s p t A G I)).
        assert (E : term_as_subject t = Some t) by (destruct t; cbn in *; tauto). rewrite E, app_nil_iff, !flat_map_nil. split.
        + intros [H1 H2] v. rewrite <- objects_of_in, <- tset_in, <- Hv. split.
          * intro X. specialize (H2 v X). destruct (tmem v (tset (objects_of W t p))) eqn:Y; [apply tmem_spec, Y|discriminate].
          * intro X. specialize (H1 v X). destruct (tmem v vs) eqn:Y; [apply tmem_spec, Y|discriminate].
        + intro H. split; intros v X.
          * rewrite tset_in, objects_of_in in X. apply H, Hv, tmem_spec in X. rewrite X. reflexivity.
          * apply Hv, H, objects_of_in, tset_in, tmem_spec in X. rewrite X. reflexivity.
      - rewrite each_nil. split.
        + intros H v Nv X. apply Hv in Nv. specialize (H v Nv). unfold disjoint_b in H. destruct (object_total W sch rank start F v) as [a Oa].
          assert (Y : existsb (fun w => match object_of W v, object_of W w with Some a, Some b => term_eqb a b | _, _ => false end) (objects_of W t p) = true).
          { apply existsb_exists. exists v. split; [apply objects_of_in, X|]. rewrite Oa. apply term_eqb_eq. reflexivity. }
          congruence.
        + intros H v Iv. destruct (disjoint_b W p t v) eqn:E; [|reflexivity]. exfalso. unfold disjoint_b in E. apply existsb_exists in E. destruct E as (w & Hw & E).
          apply objects_of_in in Hw. destruct (object_of W v) as [a|] eqn:Oa; [|discriminate]. destruct (object_of W w) as [b|] eqn:Ob; [|discriminate]. apply term_eqb_eq in E. subst b.
          assert (v = w) by (apply (plain_disjoint _ _ _ PL i s p t v w A G I); [apply Hv, Iv|exact Hw|congruence]). subst w. apply (H v); [apply Hv, Iv|exact Hw].
      - rewrite flat_map_nil. split.
        + intros H v w Nv X. apply Hv in Nv. specialize (H w (proj2 (objects_of_in t p w) X)). rewrite flat_map_nil in H. specialize (H v Nv).
          destruct (object_total W sch rank start F v) as [a Oa]. destruct (object_total W sch rank start F w) as [c Oc]. rewrite Oa, Oc in H. apply if_nil in H.
          exists a, c. split; [exact Oa|]. split; [exact Oc|]. unfold not_less in H. destruct (w_cmp W a c) as [[| |]|]; try discriminate; [right|left]; [|reflexivity].
          apply negb_false_iff in H. split; [exact H|reflexivity].
        + intros H w X. apply objects_of_in in X. apply flat_map_nil. intros v Iv. destruct (H v w (proj1 (Hv v) Iv) X) as (a & c & Oa & Oc & Y). rewrite Oa, Oc. apply if_nil.
          unfold not_less. destruct Y as [Y|[-> Y]]; rewrite Y; reflexivity.
      - destruct b; [|split; [intros _ X; discriminate|reflexivity]]. split.
        + intros H _ v w n Nv Nw. apply Hv in Nv. apply Hv in Nw. apply map_eq_nil in H. apply (proj1 (repeated_nil vs N) H v w n Nv Nw).
        + intro H. rewrite (proj2 (repeated_nil vs N)); [reflexivity|]. intros v w n Iv Iw. apply (H eq_refl); apply Hv; assumption.
      - destruct b; [|split; [intros _ X; discriminate|reflexivity]].
        assert (NP : s_path s = None) by (apply (plain_closed _ _ _ PL i s G I)). unfold value_node. rewrite NP.
        destruct t as [n|n|n] eqn:Et; cbn [term_as_subject].
        + rewrite flat_map_nil. split.
          * intros H _ v p w -> X. specialize (H (TIri n, p, w) (proj2 (triples_of_in (TIri n) _) (conj X eq_refl))). cbn in H. destruct (existsb (N.eqb p) (s_allowed s)) eqn:Y; [|discriminate].
            apply existsb_exists in Y. destruct Y as (q & Q & Y). apply N.eqb_eq in Y. subst. exact Q.
          * intros H [[a p] w] X. apply triples_of_in in X. cbn in X. destruct X as [X1 X2]. subst a. specialize (H eq_refl (TIri n) p w eq_refl X1). cbn.
            replace (existsb (N.eqb p) (s_allowed s)) with true; [reflexivity|]. symmetry. apply existsb_exists. exists p. split; [exact H|apply N.eqb_refl].
        + rewrite flat_map_nil. split.
          * intros H _ v p w -> X. specialize (H (TBnode n, p, w) (proj2 (triples_of_in (TBnode n) _) (conj X eq_refl))). cbn in H. destruct (existsb (N.eqb p) (s_allowed s)) eqn:Y; [|discriminate].
            apply existsb_exists in Y. destruct Y as (q & Q & Y). apply N.eqb_eq in Y. subst. exact Q.
          * intros H [[a p] w] X. apply triples_of_in in X. cbn in X. destruct X as [X1 X2]. subst a. specialize (H eq_refl (TBnode n) p w eq_refl X1). cbn.
            replace (existsb (N.eqb p) (s_allowed s)) with true; [reflexivity|]. symmetry. apply existsb_exists. exists p. split; [exact H|apply N.eqb_refl].
        + split; [|reflexivity]. intros _ _ v p w -> X. destruct (plain_graph _ _ _ PL _ _ _ X).
      - rewrite each_nil. split.
        + intros H v Nv. apply H, Hv, Nv.
        + intros H v Iv. apply H, Hv, Iv.
    Qed.
  End Component.

  Lemma values_total i s t : get_shape sch i = Some s -> ask i t ->
    exists vs, values W s t = Ok vs /\ NoDup vs /\ forall v, In v vs <-> value_node (w_graph W) s t v.
  Proof.
    intros G A. pose proof (values_spec W sch rank start F i s t G) as H. destruct (values W s t) as [vs| | |] eqn:E; [exists vs; auto| |destruct H|destruct H].
    exfalso. unfold values in E. destruct (s_path s) as [p|] eqn:Pp; [|discriminate]. destruct (fine_path _ _ _ _ F i s p G Pp) as [S _].
    pose proof (path_good (w_ord W) (fine_order _ _ _ _ F) (w_graph W) p S (2 * length (w_graph W) + 2) t) as K. unfold path_nodes in E. rewrite E in K.
    cbn [PathLemmas.good] in K. destruct K as (x & K1 & K2). apply (plain_path _ _ _ PL i s p t x A G Pp K1 K2).
  Qed.

  Theorem conforms_ok : forall n i t, rank i < n -> ask i t -> (exists s, get_shape sch i = Some s) -> (V i t = [] <-> C i t).
  Proof.
    induction n as [|n IH]; intros i t L A [s G]; [lia|]. rewrite (HC i s t G), (V_step W sch rank start F i s t G).
    destruct (s_deactivated s) eqn:D; [split; [left; reflexivity|reflexivity]|].
    destruct (values_total i s t G A) as (vs & E & N & Hv). destruct (object_total W sch rank start F t) as [o O].
    unfold veval. rewrite E. rewrite app_nil_iff, !flat_map_nil.
    assert (K : forall j v, In j (refs s) -> In v vs -> V j v = [] <-> C j v).
    { intros j v J Iv. destruct (fine_rank _ _ _ _ F i s G j J) as [X R]. apply IH; [lia| |exact X].
      apply (asked_ref _ _ _ i t s j v A G J). apply Hv, Iv. }
    assert (Kc : forall c, In c (s_comps s) -> cevalf W V s c (t, vs) = [] <-> satisfies W C s c t).
    { intros c I. unfold cevalf. cbn [fst snd]. rewrite O. apply (satisfied i s G t o A O vs N Hv c I). intros j v J Iv. unfold ok. rewrite no_results_nil. apply K; [apply (refs_comp s c j I J)|exact Iv]. }
    split.
    - intros [H1 H2]. right. split; [intros c I; apply (Kc c I), H1, I|]. intros j v J Nv. apply Hv in Nv. apply (K j v (refs_prop s j J) Nv).
      specialize (H2 j J). rewrite flat_map_nil in H2. apply H2, Nv.
    - intros [X|[H1 H2]]; [discriminate|]. split; [intros c I; apply (Kc c I), H1, I|]. intros j J. apply flat_map_nil. intros v Iv. apply (K j v (refs_prop s j J) Iv), H2; [exact J|apply Hv, Iv].
  Qed.
End Conf.

(** ** a shapes graph without recursion has exactly one notion of conformance *)
Lemma at_least_ext m (P P' : term -> Prop) : (forall v, P v <-> P' v) -> at_least m P -> at_least m P'.
Proof. intros H (l & N & K & L). exists l. split; [exact N|]. split; [|exact L]. intros v V. apply H, K, V. Qed.
Lemma at_most_ext m (P P' : term -> Prop) : (forall v, P v <-> P' v) -> at_most m P -> at_most m P'.
Proof. intros H K l N L. apply K; [exact N|]. intros v V. apply H, L, V. Qed.
Lemma satisfies_ext W (C C' : nat -> term -> Prop) s c t : (forall j v, In j (comp_refs c) -> (C j v <-> C' j v)) -> satisfies W C s c t -> satisfies W C' s c t.
Proof.
  intro H. destruct c as [l|l|l|j|j|j sib qmin qmax|n|n|w|l|p|p|b p|b|b|k]; cbn [satisfies comp_refs] in *; auto.
  - intros K v Nv j J. apply (H j v J), K; assumption.
  - intros K v Nv. destruct (K v Nv) as (j & J & X). exists j. split; [exact J|]. apply (H j v J), X.
  - intros K v Nv. destruct (K v Nv) as (l1 & j & l2 & -> & X & Y). exists l1, j, l2. split; [reflexivity|]. split; [apply (H j v); [apply in_elt|exact X]|].
    intros k Hk Z. apply (Y k Hk). apply (H k v); [apply in_app_or in Hk; apply in_or_app; cbn; tauto|exact Z].
  - intros K v Nv X. apply (K v Nv). apply (H j v (or_introl eq_refl)), X.
  - intros K v Nv. apply (H j v (or_introl eq_refl)), K, Nv.
  - assert (E : forall v, (value_node (w_graph W) s t v /\ C j v /\ forall k, In k sib -> ~ C k v) <-> (value_node (w_graph W) s t v /\ C' j v /\ forall k, In k sib -> ~ C' k v)).
    { intro v. split; intros (A & B & D); (split; [exact A|]); (split; [apply (H j v (or_introl eq_refl)), B|]); intros k Hk X; apply (D k Hk), (H k v (or_intror Hk)), X. }
    intros [K1 K2]. split; intros m M; [apply (at_least_ext m _ _ E), K1, M|apply (at_most_ext m _ _ E), K2, M].
Qed.
Fixpoint Cf (W : world) (sch : schema) (n : nat) (i : nat) (t : term) : Prop :=
  match n with
  | O => True
  | S n => match get_shape sch i with
           | None => True
           | Some s => s_deactivated s = true \/
               (forall c, In c (s_comps s) -> satisfies W (Cf W sch n) s c t) /\
               (forall j v, In j (s_props s) -> value_node (w_graph W) s t v -> Cf W sch n j v)
           end
  end.
Lemma Cf_stable W sch rank : layered sch rank -> forall k i t, rank i < k -> forall n m, rank i < n -> rank i < m -> (Cf W sch n i t <-> Cf W sch m i t).
Proof.
  intro L. induction k as [|k IH]; intros i t K n m N M; [lia|]. destruct n as [|n]; [lia|]. destruct m as [|m]; [lia|]. cbn [Cf].
  destruct (get_shape sch i) as [s|] eqn:G; [|reflexivity].
  assert (E : forall j v, In j (refs s) -> (Cf W sch n j v <-> Cf W sch m j v)).
  { intros j v J. destruct (L i s G j J) as [_ R]. apply (IH j v); lia. }
  split; (intros [D|[H1 H2]]; [left; exact D|right; split]).
  - intros c I. apply (satisfies_ext W (Cf W sch n)); [|apply H1, I]. intros j v J. apply E, (refs_comp s c j I J).
  - intros j v J Nv. apply (E j v (refs_prop s j J)), H2; assumption.
  - intros c I. apply (satisfies_ext W (Cf W sch m)); [|apply H1, I]. intros j v J. symmetry. apply E, (refs_comp s c j I J).
  - intros j v J Nv. apply (E j v (refs_prop s j J)), H2; assumption.
Qed.
Theorem conformance_exists W sch rank : layered sch rank -> conformance W sch (fun i t => Cf W sch (S (rank i)) i t).
Proof.
  intros L i s t G. cbn [Cf]. rewrite G.
  assert (E : forall j v, In j (refs s) -> (Cf W sch (rank i) j v <-> Cf W sch (S (rank j)) j v)).
  { intros j v J. destruct (L i s G j J) as [_ R]. apply (Cf_stable W sch rank L (S (rank j))); lia. }
  split; (intros [D|[H1 H2]]; [left; exact D|right; split]).
  - intros c I. apply (satisfies_ext W (Cf W sch (rank i))); [|apply H1, I]. intros j v J. apply E, (refs_comp s c j I J).
  - intros j v J Nv. apply (E j v (refs_prop s j J)), H2; assumption.
  - intros c I. eapply (satisfies_ext W); [|apply H1, I]. intros j v J. cbn beta. symmetry. apply E, (refs_comp s c j I J).
  - intros j v J Nv. apply (E j v (refs_prop s j J)), H2; assumption.
Qed.
Theorem conformance_unique W sch rank C C' : layered sch rank -> conformance W sch C -> conformance W sch C' ->
  forall n i s t, rank i < n -> get_shape sch i = Some s -> (C i t <-> C' i t).
Proof.
  intros L H H'. induction n as [|n IH]; intros i s t N G; [lia|]. rewrite (H i s t G), (H' i s t G).
  assert (E : forall j v, In j (refs s) -> (C j v <-> C' j v)).
  { intros j v J. destruct (L i s G j J) as [[s' G'] R]. apply (IH j s' v); [lia|exact G']. }
  split; (intros [D|[H1 H2]]; [left; exact D|right; split]).
  - intros c I. apply (satisfies_ext W C); [|apply H1, I]. intros j v J. apply E, (refs_comp s c j I J).
  - intros j v J Nv. apply (E j v (refs_prop s j J)), H2; assumption.
  - intros c I. apply (satisfies_ext W C'); [|apply H1, I]. intros j v J. symmetry. apply E, (refs_comp s c j I J).
  - intros j v J Nv. apply (E j v (refs_prop s j J)), H2; assumption.
Qed.
