(** Lemmas about property paths. *)
From Coq Require Import List Bool NArith Relations Permutation Lia Arith.
Import ListNotations.
From Verif Require Import PathModel PathSpec.

Lemma term_eqb_spec a b : reflect (a = b) (term_eqb a b).
Proof.
  destruct a as [n|n|n], b as [m|m|m]; cbn [term_eqb]; try (constructor; discriminate);
    (destruct (N.eqb_spec n m); constructor; congruence).
Qed.
Lemma term_eq_dec (a b : term) : {a = b} + {a <> b}.
Proof. destruct (term_eqb_spec a b); [left|right]; assumption. Qed.
Lemma tmem_spec x l : tmem x l = true <-> In x l.
Proof.
  unfold tmem. rewrite existsb_exists. split; [intros (y & H & E); destruct (term_eqb_spec x y); [subst; exact H|discriminate]|].
  intro H. exists x. split; [exact H|]. destruct (term_eqb_spec x x); congruence.
Qed.
Lemma tinsert_in x l y : In y (tinsert x l) <-> x = y \/ In y l.
Proof.
  unfold tinsert. destruct (tmem x l) eqn:E; [|reflexivity]. apply tmem_spec in E. split; [auto|]. intros [<-|H]; assumption.
Qed.
Lemma tinsert_nodup x l : NoDup l -> NoDup (tinsert x l).
Proof.
  intro H. unfold tinsert. destruct (tmem x l) eqn:E; [exact H|]. constructor; [|exact H]. intro X. apply tmem_spec in X. congruence.
Qed.
Lemma textend_in xs l y : In y (textend l xs) <-> In y l \/ In y xs.
Proof.
  unfold textend. revert l. induction xs as [|x xs IH]; intro l; cbn [fold_left]; [cbn; tauto|]. rewrite IH, tinsert_in. cbn. tauto.
Qed.
Lemma textend_nodup xs l : NoDup l -> NoDup (textend l xs).
Proof. unfold textend. revert l. induction xs as [|x xs IH]; intros l H; cbn [fold_left]; [exact H|]. apply IH, tinsert_nodup, H. Qed.
Lemma tset_in xs y : In y (tset xs) <-> In y xs.
Proof. unfold tset. rewrite textend_in. cbn. tauto. Qed.
Lemma tset_nodup xs : NoDup (tset xs).
Proof. apply textend_nodup. constructor. Qed.

(** induction over paths *)
Lemma path_ind' (P : path -> Prop) :
  (forall i, P (PPred i)) -> (forall ps, Forall P ps -> P (PAlt ps)) -> (forall ps, Forall P ps -> P (PSeq ps)) ->
  (forall q, P q -> P (PInv q)) -> (forall q, P q -> P (PStar q)) -> (forall q, P q -> P (PPlus q)) -> (forall q, P q -> P (POpt q)) ->
  forall p, P p.
Proof.
  intros H1 H2 H3 H4 H5 H6 H7. fix F 1. intros [i|ps|ps|q|q|q|q].
  - apply H1.
  - apply H2. induction ps as [|q ps IH]; constructor; [apply F|exact IH].
  - apply H3. induction ps as [|q ps IH]; constructor; [apply F|exact IH].
  - apply H4, F.
  - apply H5, F.
  - apply H6, F.
  - apply H7, F.
Qed.

Section Eval.
  Variable ord : list term -> list term.
  Hypothesis perm : any_order ord.
  Variable g : graph.
  Hypothesis rdf : rdf_graph g.

  Lemma ord_in l x : In x (ord l) <-> In x l.
  Proof. split; apply Permutation_in; [|apply Permutation_sym]; apply perm. Qed.
  Lemma ord_nodup l : NoDup l -> NoDup (ord l).
  Proof. intro H. apply (Permutation_NoDup (l := l)); [apply Permutation_sym, perm|exact H]. Qed.

  (** the nodes of the graph *)
  Definition nodes : list term := flat_map (fun t => [fst (fst t); snd t]) g.
  Lemma nodes_len : length nodes = 2 * length g.
  Proof. unfold nodes. clear. induction g as [|t l IH]; [reflexivity|]. cbn [flat_map app length]. rewrite IH. lia. Qed.
  Lemma nodes_l s p o : In (s, p, o) g -> In s nodes.
  Proof. intro H. apply in_flat_map. exists (s, p, o). split; [exact H|left; reflexivity]. Qed.
  Lemma nodes_r s p o : In (s, p, o) g -> In o nodes.
  Proof. intro H. apply in_flat_map. exists (s, p, o). split; [exact H|right; left; reflexivity]. Qed.

  (** what the evaluation of a step should give *)
  Definition good (fuel : nat) (R : term -> Prop) (E : Prop) (r : res (list term)) : Prop :=
    match r with
    | Ok l => NoDup l /\ (forall o, In o l <-> R o) /\ ~ E
    | Err => E
    | Panic => False
    | OutOfFuel => fuel < enough g
    end.
  Lemma good_ext fuel R R' (E E' : Prop) r : (forall o, R o <-> R' o) -> (E <-> E') -> good fuel R E r -> good fuel R' E' r.
  Proof.
    intros HR HE G. destruct r as [l| | |]; cbn in *; [|tauto|exact G|exact G].
    destruct G as (N & S & F). split; [exact N|]. split; [|tauto]. intro o. rewrite S. apply HR.
  Qed.

  Lemma objects_for_good fuel s p : good fuel (fun o => In (s, p, o) g) (exists x, s = x /\ literal x) (objects_for g s p).
  Proof.
    unfold objects_for. destruct (term_as_subject s) as [s'|] eqn:A.
    - assert (s' = s) by (destruct s; try discriminate; injection A as <-; reflexivity). subst s'. cbn.
      split; [apply tset_nodup|]. split.
      + intro o. rewrite tset_in, in_map_iff. split.
        * intros ([[a b] c] & <- & H). apply filter_In in H as [H E]. cbn in *. apply andb_prop in E as [E1 E2].
          destruct (term_eqb_spec a s); [|discriminate]. apply N.eqb_eq in E2. subst. exact H.
        * intro H. exists (s, p, o). split; [reflexivity|]. apply filter_In. split; [exact H|]. cbn.
          rewrite N.eqb_refl. destruct (term_eqb_spec s s); [reflexivity|congruence].
      + intros (x & <- & H). destruct s; try discriminate; exact H.
    - cbn. exists s. split; [reflexivity|]. destruct s; try discriminate. exact I.
  Qed.
  Lemma subjects_for_good fuel s p : good fuel (fun o => In (o, p, s) g) False (subjects_for g p s).
  Proof.
    unfold subjects_for. cbn. split; [apply tset_nodup|]. split; [|tauto].
    intro o. rewrite tset_in, in_map_iff. split.
    - intros ([[a b] c] & <- & H). apply filter_In in H as [H E]. cbn in *. apply andb_prop in E as [E1 E2].
      destruct (term_eqb_spec c s); [|discriminate]. apply N.eqb_eq in E2. subst. exact H.
    - intro H. exists (o, p, s). split; [reflexivity|]. apply filter_In. split; [exact H|]. cbn.
      rewrite N.eqb_refl. destruct (term_eqb_spec s s); [reflexivity|congruence].
  Qed.

  Lemma gather_good fuel (f : term -> res (list term)) (R : term -> term -> Prop) (E : term -> Prop) :
    (forall x, good fuel (R x) (E x) (f x)) -> forall xs all, NoDup all ->
    good fuel (fun o => In o all \/ exists x, In x xs /\ R x o) (exists x, In x xs /\ E x) (gather f xs all).
  Proof.
    intro F. induction xs as [|x xs IH]; intros all N; cbn [gather].
    - cbn. split; [exact N|]. split; [|intros (y & [] & _)]. intro o. split; [auto|]. intros [H|(y & [] & _)]. exact H.
    - specialize (F x). destruct (f x) as [l| | |]; cbn [bind good] in *.
      + destruct F as (Nl & Sl & Fl). specialize (IH (textend all l) (textend_nodup l all N)). revert IH. apply good_ext.
        * intro o. rewrite textend_in, Sl. split.
          -- intros [[H|H]|(y & H & K)]; [left; exact H|right; exists x; split; [left; reflexivity|exact H]|right; exists y; split; [right; exact H|exact K]].
          -- intros [H|(y & [<-|H] & K)]; [left; left; exact H|left; right; exact K|right; exists y; split; assumption].
        * split; [intros (y & H & K); exists y; split; [right; exact H|exact K]|]. intros (y & [<-|H] & K); [contradiction|exists y; split; assumption].
      + exists x. split; [left; reflexivity|exact F].
      + exact F.
      + exact F.
  Qed.

  (** ** closures *)
  Lemma push_new_spec objs : forall all todo all' todo', push_new objs all todo = (all', todo') -> NoDup all ->
    exists fresh, all' = rev fresh ++ all /\ todo' = rev fresh ++ todo /\ NoDup all' /\ (forall x, In x all' <-> In x all \/ In x objs).
  Proof.
    induction objs as [|o objs IH]; intros all todo all' todo' H N; cbn [push_new] in H.
    - injection H as <- <-. exists []. cbn. repeat split; auto. intros [H|[]]; exact H.
    - destruct (tmem o all) eqn:E.
      + destruct (IH _ _ _ _ H N) as (fr & -> & -> & N' & S). exists fr. split; [reflexivity|]. split; [reflexivity|]. split; [exact N'|].
        intro x. rewrite S. apply tmem_spec in E. cbn. split; [tauto|]. intros [X|[<-|X]]; auto.
      + assert (K : ~ In o all) by (intro X; apply tmem_spec in X; congruence).
        destruct (IH _ _ _ _ H (NoDup_cons o K N)) as (fr & -> & -> & N' & S). exists (o :: fr). cbn [rev]. rewrite <- !app_assoc. cbn [app].
        split; [reflexivity|]. split; [reflexivity|]. split; [exact N'|]. intro x. rewrite S. cbn. tauto.
  Qed.

  Section Close.
    Variable fuel0 : nat.
    Variable f : term -> res (list term).
    Variable R : term -> term -> Prop.
    Variable E : term -> Prop.
    Hypothesis F : forall x, good fuel0 (R x) (E x) (f x).
    Notation star := (clos_refl_trans_1n term R).
    Lemma star_step a b c : star a b -> R b c -> star a c.
    Proof. intros H K. induction H as [|x y z H1 H2 IH]; [eapply Relation_Operators.rt1n_trans; [exact K|constructor]|]. eapply Relation_Operators.rt1n_trans; [exact H1|apply IH, K]. Qed.
    Lemma star_trans a b c : star a b -> star b c -> star a c.
    Proof. intros H K. induction H as [|x y z H1 H2 IH]; [exact K|]. eapply Relation_Operators.rt1n_trans; [exact H1|apply IH, K]. Qed.

    Lemma close_good U : (forall a b, In a U -> R a b -> In b U) -> length U < enough g ->
      forall fuel roots all todo, NoDup all -> incl all U -> incl todo all -> (forall x, In x all -> exists r, In r roots /\ star r x) ->
      incl roots all -> (forall x, In x all -> ~ In x todo -> (forall y, R x y -> In y all) /\ ~ E x) ->
      (fuel < length todo + (length U - length all) -> fuel0 < enough g) ->
      good fuel0 (fun o => exists r, In r roots /\ star r o) (exists r x, In r roots /\ star r x /\ E x) (close ord fuel f all todo).
    Proof.
      intros HU LU. induction fuel as [|fuel IH]; intros roots all todo N IU IT RE RI CL FU; destruct todo as [|x todo]; cbn [close].
      - cbn. split; [exact N|]. split; [|].
        + intro o. split; [apply RE|]. intros (r & Ir & S). apply RI in Ir. revert Ir. induction S as [|a b c H1 H2 IH2]; [auto|].
          intro Ia. apply IH2. apply (CL a Ia); [intros []|exact H1].
        + intros (r & y & Ir & S & Ey). apply RI in Ir. revert Ir. induction S as [a|a b c H1 H2 IH2]; [intro Ia; apply (CL a Ia); [intros []|exact Ey]|].
          intro Ia. apply IH2; [exact Ey|]. apply (CL a Ia); [intros []|exact H1].
      - cbn. apply FU. cbn [length]. lia.
      - cbn. split; [exact N|]. split; [|].
        + intro o. split; [apply RE|]. intros (r & Ir & S). apply RI in Ir. revert Ir. induction S as [|a b c H1 H2 IH2]; [auto|].
          intro Ia. apply IH2. apply (CL a Ia); [intros []|exact H1].
        + intros (r & y & Ir & S & Ey). apply RI in Ir. revert Ir. induction S as [a|a b c H1 H2 IH2]; [intro Ia; apply (CL a Ia); [intros []|exact Ey]|].
          intro Ia. apply IH2; [exact Ey|]. apply (CL a Ia); [intros []|exact H1].
      - assert (Ix : In x all) by (apply IT; left; reflexivity).
        pose proof (F x) as Fx. destruct (f x) as [l| | |]; cbn [bind].
        + destruct Fx as (Nl & Sl & Fl). destruct (push_new (ord l) all todo) as [all' todo'] eqn:P.
          destruct (push_new_spec _ _ _ _ _ P N) as (fr & -> & -> & N' & S).
          assert (IU' : incl (rev fr ++ all) U).
          { intros y Hy. apply S in Hy as [Hy|Hy]; [apply IU, Hy|]. apply ord_in, Sl in Hy. apply (HU x); [apply IU, Ix|exact Hy]. }
          apply IH.
          * exact N'.
          * exact IU'.
          * intros y Hy. apply in_app_or in Hy as [Hy|Hy]; apply in_or_app; [left; exact Hy|right; apply IT; right; exact Hy].
          * intros y Hy. apply S in Hy as [Hy|Hy]; [apply RE, Hy|]. apply ord_in, Sl in Hy. destruct (RE x Ix) as (r & Ir & St).
            exists r. split; [exact Ir|]. apply (star_step r x y St Hy).
          * intros y Hy. apply in_or_app. right. apply RI, Hy.
          * intros y Hy Ny. assert (Nf : ~ In y (rev fr)) by (intro X; apply Ny, in_or_app; left; exact X).
            apply in_app_or in Hy as [Hy|Hy]; [contradiction|]. destruct (term_eq_dec y x) as [->|D].
            -- split; [|exact Fl]. intros z Hz. apply S. right. apply ord_in, Sl, Hz.
            -- destruct (CL y Hy) as [C1 C2]; [intros [X|X]; [congruence|apply Ny, in_or_app; right; exact X]|].
               split; [|exact C2]. intros z Hz. apply S. left. apply C1, Hz.
          * intro L. apply FU. cbn [length]. rewrite !app_length in L. pose proof (NoDup_incl_length N' IU') as B. rewrite app_length in B. lia.
        + cbn in *. destruct (RE x Ix) as (r & Ir & St). exists r, x. split; [exact Ir|]. split; assumption.
        + exact Fx.
        + exact Fx.
    Qed.
  End Close.

  Lemma holds_node p : simple_inverses p -> forall s o, holds g p s o -> o = s \/ In o nodes.
  Proof.
    induction p as [i|ps IH|ps IH|q IH|q IH|q IH|q IH] using path_ind'; intros SI s o H.
    - right. cbn [holds] in H. apply (nodes_r s i), H.
    - cbn [holds simple_inverses] in *. induction IH as [|q ps Hq _ IH]; [contradiction|]. destruct SI as [S1 S2]. destruct H as [H|H]; [apply (Hq S1), H|apply IH; assumption].
    - cbn [holds simple_inverses] in *. revert s H. induction IH as [|q ps Hq _ IH]; intros s H; [left; symmetry; exact H|]. destruct SI as [S1 S2].
      destruct H as (m & H1 & H2). destruct (IH S2 m H2) as [->|X]; [apply (Hq S1), H1|right; exact X].
    - cbn [holds simple_inverses] in *. destruct q as [i| | | | | |]; try contradiction. right. apply (nodes_l o i s), H.
    - cbn [holds simple_inverses] in *. induction H as [|x y z H1 H2 IH2]; [left; reflexivity|]. destruct IH2 as [->|X]; [apply (IH SI), H1|right; exact X].
    - cbn [holds simple_inverses] in *. induction H as [x y H1|x y z H1 H2 IH2]; [apply (IH SI), H1|]. destruct IH2 as [->|X]; [apply (IH SI), H1|right; exact X].
    - cbn [holds simple_inverses] in *. destruct H as [->|H]; [left; reflexivity|apply (IH SI), H].
  Qed.

  Definition meets_literal (p : path) (s : term) : Prop := exists x, leaves g p s x /\ literal x.

  Lemma plus_star R (s : term) o : clos_trans_1n term R s o <-> exists r : term, R s r /\ clos_refl_trans_1n term R r o.
  Proof.
    split.
    - intro H. induction H as [x y H|x y z H1 H2 (r & H3 & H4)]; [exists y; split; [exact H|constructor]|].
      exists y. split; [exact H1|]. eapply Relation_Operators.rt1n_trans; [exact H3|exact H4].
    - intros (r & H1 & H2). revert s H1. induction H2 as [x|x y z H H' IH]; intros s H1; [constructor; exact H1|].
      eapply Relation_Operators.t1n_trans; [exact H1|]. apply IH, H.
  Qed.

  Theorem path_good p : simple_inverses p -> forall fuel s, good fuel (holds g p s) (meets_literal p s) (objects_for_path ord g fuel p s).
  Proof.
    induction p as [i|ps IH|ps IH|q IH|q IH|q IH|q IH] using path_ind'; intros SI fuel s; unfold meets_literal.
    - cbn [objects_for_path holds leaves]. apply objects_for_good.
    - cbn [objects_for_path holds leaves simple_inverses] in *.
      assert (G : forall all, NoDup all -> good fuel
        (fun o => In o all \/ (fix some (ps : list path) := match ps with [] => False | q :: ps => holds g q s o \/ some ps end) ps)
        (exists x, (fix some (ps : list path) := match ps with [] => False | q :: ps => leaves g q s x \/ some ps end) ps /\ literal x)
        ((fix alt (ps : list path) (all : list term) : res (list term) :=
           match ps with
           | [] => Ok all
           | q :: ps => bind (objects_for_path ord g fuel q s) (fun l => alt ps (textend all l))
           end) ps all)).
      { induction IH as [|q ps Hq _ IH]; intros all N.
        - cbn. split; [exact N|]. split; [tauto|]. intros (x & [] & _).
        - destruct SI as [S1 S2]. specialize (Hq S1 fuel s). destruct (objects_for_path ord g fuel q s) as [l| | |]; cbn [bind] in *.
          + destruct Hq as (Nl & Sl & Fl). specialize (IH S2 (textend all l) (textend_nodup l all N)). revert IH. apply good_ext.
            * intro o. rewrite textend_in, Sl. tauto.
            * split; [intros (x & H & K); exists x; split; [right; exact H|exact K]|]. intros (x & [H|H] & K); [exfalso; apply Fl; exists x; split; assumption|exists x; split; assumption].
          + cbn in *. destruct Hq as (x & H & K). exists x. split; [left; exact H|exact K].
          + exact Hq.
          + exact Hq. }
      specialize (G [] (NoDup_nil _)). revert G. apply good_ext; [|reflexivity]. intro o. cbn. tauto.
    - cbn [objects_for_path holds leaves simple_inverses] in *. revert s. induction IH as [|q ps Hq _ IH]; intro s.
      + cbn. split; [repeat constructor; intros []|]. split; [|intros (x & [] & _)]. intro o. split; [intros [<-|[]]; reflexivity|intros <-; left; reflexivity].
      + destruct SI as [S1 S2]. specialize (Hq S1 fuel s). destruct (objects_for_path ord g fuel q s) as [l| | |]; cbn [bind] in *.
        * destruct Hq as (Nl & Sl & Fl).
          pose proof (gather_good fuel _ _ _ (IH S2) (ord l) [] (NoDup_nil _)) as G. revert G. apply good_ext.
          -- intro o. split.
             ++ intros [[]|(x & H & K)]. exists x. split; [apply Sl, ord_in, H|exact K].
             ++ intros (m & H & K). right. exists m. split; [apply ord_in, Sl, H|exact K].
          -- split.
             ++ intros (m & H & x & K & L). exists x. split; [|exact L]. right. exists m. split; [apply Sl, ord_in, H|exact K].
             ++ intros (x & [H|(m & H & K)] & L); [exfalso; apply Fl; exists x; split; assumption|]. exists m. split; [apply ord_in, Sl, H|]. exists x. split; assumption.
        * cbn in *. destruct Hq as (x & H & K). exists x. split; [left; exact H|exact K].
        * exact Hq.
        * exact Hq.
    - cbn [objects_for_path holds leaves simple_inverses] in *. destruct q as [i| | | | | |]; try contradiction. cbn [holds].
      eapply good_ext; [| |apply (subjects_for_good fuel s i)]; [intro o; reflexivity|]. split; [intros []|intros (x & [] & _)].
    - cbn [objects_for_path holds leaves simple_inverses] in *.
      eapply good_ext; [| |apply (close_good fuel (objects_for_path ord g fuel q) (holds g q) (meets_literal q) (IH SI fuel) (s :: nodes)) with (roots := [s])].
      + intro o. split; [intros (r & [<-|[]] & H); exact H|]. intro H. exists s. split; [left; reflexivity|exact H].
      + split.
        * intros (r & m & [<-|[]] & H & x & K & L). exists x. split; [|exact L]. exists m. split; assumption.
        * intros (x & (m & H & K) & L). exists s, m. split; [left; reflexivity|]. split; [exact H|]. exists x. split; assumption.
      + intros a b Ha H. destruct (holds_node q SI a b H) as [->|X]; [exact Ha|right; exact X].
      + unfold enough. cbn [length]. rewrite nodes_len. lia.
      + repeat constructor; intros [].
      + intros x [<-|[]]. left. reflexivity.
      + apply incl_refl.
      + intros x [<-|[]]. exists s. split; [left; reflexivity|constructor].
      + apply incl_refl.
      + intros x H K. contradiction.
      + unfold enough. cbn [length]. rewrite nodes_len. lia.
    - cbn [objects_for_path holds leaves simple_inverses] in *. pose proof (IH SI fuel s) as G0. destruct (objects_for_path ord g fuel q s) as [l| | |]; cbn [bind] in *.
      + destruct G0 as (Nl & Sl & Fl).
        eapply good_ext; [| |apply (close_good fuel (objects_for_path ord g fuel q) (holds g q) (meets_literal q) (IH SI fuel) (s :: nodes)) with (roots := l)].
        * intro o. rewrite plus_star. split; intros (r & H & K); exists r; (split; [apply Sl, H|exact K]).
        * split.
          -- intros (r & m & Ir & H & x & K & L). exists x. split; [|exact L]. exists m. split; [|exact K]. eapply Relation_Operators.rt1n_trans; [apply Sl, Ir|exact H].
          -- intros (x & (m & H & K) & L). destruct H as [|r m' H1 H2]; [exfalso; apply Fl; exists x; split; assumption|]. exists r, m'. split; [apply Sl, H1|]. split; [exact H2|]. exists x. split; assumption.
        * intros a b Ha H. destruct (holds_node q SI a b H) as [->|X]; [exact Ha|right; exact X].
        * unfold enough. cbn [length]. rewrite nodes_len. lia.
        * exact Nl.
        * intros x H. apply Sl in H. destruct (holds_node q SI s x H) as [->|X]; [left; reflexivity|right; exact X].
        * intros x H. apply (proj1 (ord_in l x)), H.
        * intros x H. exists x. split; [exact H|constructor].
        * apply incl_refl.
        * intros x H K. exfalso. apply K, ord_in, H.
        * pose proof (Permutation_length (perm l)) as PL.
          assert (B : length l <= length (s :: nodes)).
          { apply NoDup_incl_length; [exact Nl|]. intros x H. apply Sl in H. destruct (holds_node q SI s x H) as [->|X]; [left; reflexivity|right; exact X]. }
          unfold enough. cbn [length] in *. rewrite nodes_len in *. lia.
      + cbn in *. destruct G0 as (x & H & K). exists x. split; [|exact K]. exists s. split; [constructor|exact H].
      + exact G0.
      + exact G0.
    - cbn [objects_for_path holds leaves simple_inverses] in *. specialize (IH SI fuel s). destruct (objects_for_path ord g fuel q s) as [l| | |]; cbn [bind] in *; try exact IH.
      destruct IH as (Nl & Sl & Fl). cbn [good]. split; [apply textend_nodup; repeat constructor; intros []|]. split; [|exact Fl].
      intro o. rewrite textend_in, Sl. cbn. split; [intros [[H|[]]|H]; auto|intros [H|H]; auto].
  Qed.
End Eval.
