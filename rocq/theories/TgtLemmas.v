(** Lemmas about the targets of shapes (C70). *)
From Coq Require Import List Bool NArith ZArith Relations Lia Arith.
Import ListNotations.
From Verif Require Import PathModel PathSpec PathLemmas ShaclModel ShaclSpec ShcModel ShcSpec ShcLemmas ShcMeaning TgtModel TgtSpec.

Lemma eqb_refl_t t : term_eqb t t = true.
Proof. destruct (term_eqb_spec t t); congruence. Qed.
Lemma eqb_true t u : term_eqb t u = true <-> t = u.
Proof. destruct (term_eqb_spec t u); split; congruence. Qed.

Section Targets.
  Variable V : vocabulary.
  Variable g : graph.
  Variable key : N -> option N.
  Variable back : N -> N.
  Hypothesis G : rdf_graph g.
  Hypothesis TS : v_type V <> v_sub V.
  Notation ix := (build_index g (v_type V) (v_sub V) key).

  Lemma as_object_subject s p o : In (s, p, o) g -> as_object key s = Some s.
  Proof. intros H. specialize (G _ _ _ H). destruct s; [reflexivity|reflexivity|destruct G]. Qed.
  Lemma as_object_plain o c : ~ literal c -> as_object key o = Some c <-> o = c.
  Proof.
    intros N. destruct o; cbn; split; try congruence.
    - intros H. destruct (key n); cbn in H; [|discriminate]. injection H as <-. exfalso. apply N. exact Logic.I.
    - intros <-. exfalso. apply N. exact Logic.I.
  Qed.
  Definition pairs (p : N) (l : graph) (e : term * term) : Prop := exists s o, In (s, p, o) l /\ as_object key o = Some (fst e) /\ as_object key s = Some (snd e).
  Lemma fold_index l : forall ix0 e,
    (In e (fst (fold_left (add_triple (v_type V) (v_sub V) key) l ix0)) <-> In e (fst ix0) \/ pairs (v_type V) l e) /\
    (In e (snd (fold_left (add_triple (v_type V) (v_sub V) key) l ix0)) <-> In e (snd ix0) \/ pairs (v_sub V) l e).
  Proof.
    induction l as [|[[s p] o] l IH]; intros ix0 e; cbn [fold_left].
    - split; (split; [intros H; left; exact H|intros [H|(s & o & [] & _)]; exact H]).
    - destruct (IH (add_triple (v_type V) (v_sub V) key ix0 (s, p, o)) e) as [I1 I2]. rewrite I1, I2.
      assert (X : forall q, pairs q ((s, p, o) :: l) e <-> (p = q /\ as_object key o = Some (fst e) /\ as_object key s = Some (snd e)) \/ pairs q l e).
      { intros q. split.
        - intros (s' & o' & [H|H] & K1 & K2); [injection H as -> -> ->; left; auto|right; exists s', o'; auto].
        - intros [(-> & K1 & K2)|(s' & o' & H & K)]; [exists s, o; split; [left; reflexivity|auto]|exists s', o'; split; [right; exact H|exact K]]. }
      rewrite !X. unfold add_triple. cbn [fst snd]. unfold pair_of. cbn [fst snd]. destruct (N.eqb_spec p (v_type V)) as [->|N1].
      + destruct (as_object key o) as [c|]; [destruct (as_object key s) as [i|]|]; cbn [fst snd In].
        * destruct e as [c' i']; cbn [fst snd]. split; split; intros H; intuition (try congruence); try (left; left; congruence).
        * split; split; intros H; intuition (try congruence).
        * split; split; intros H; intuition (try congruence).
      + destruct (N.eqb_spec p (v_sub V)) as [->|N2].
        * destruct (as_object key o) as [c|]; [destruct (as_object key s) as [i|]|]; cbn [fst snd In].
          -- destruct e as [c' i']; cbn [fst snd]. split; split; intros H; intuition (try congruence); try (left; left; congruence).
          -- split; split; intros H; intuition (try congruence).
          -- split; split; intros H; intuition (try congruence).
        * split; split; intros H; intuition (try congruence).
  Qed.
  Lemma look_up_in m c i : In i (look_up m c) <-> In (c, i) m.
  Proof.
    unfold look_up. rewrite tset_in, in_map_iff. split.
    - intros ([c' i'] & E & H). cbn in E. subst i'. apply filter_In in H. destruct H as [H K]. cbn in K. apply eqb_true in K. subst c'. exact H.
    - intros H. exists (c, i). split; [reflexivity|]. apply filter_In. split; [exact H|]. cbn. apply eqb_refl_t.
  Qed.
  Lemma instances_in c i : ~ literal c -> In i (instances_of ix c) <-> In (i, v_type V, c) g.
  Proof.
    intros N. unfold instances_of. rewrite look_up_in. unfold build_index. rewrite (proj1 (fold_index g ([], []) (c, i))). cbn [fst snd In]. split.
    - intros [[]|(s & o & H & K1 & K2)]. cbn in K1, K2. apply (as_object_plain o c N) in K1. rewrite (as_object_subject _ _ _ H) in K2. congruence.
    - intros H. right. exists i, c. split; [exact H|]. cbn. split; [apply (as_object_plain c c N); reflexivity|apply (as_object_subject _ _ _ H)].
  Qed.
  Lemma subclasses_in c i : ~ literal c -> In i (subclasses_of ix c) <-> In (i, v_sub V, c) g.
  Proof.
    intros N. unfold subclasses_of. rewrite look_up_in. unfold build_index. rewrite (proj2 (fold_index g ([], []) (c, i))). cbn [fst snd In]. split.
    - intros [[]|(s & o & H & K1 & K2)]. cbn in K1, K2. apply (as_object_plain o c N) in K1. rewrite (as_object_subject _ _ _ H) in K2. congruence.
    - intros H. right. exists i, c. split; [exact H|]. cbn. split; [apply (as_object_plain c c N); reflexivity|apply (as_object_subject _ _ _ H)].
  Qed.
  Lemma fold_textend (f : term -> list term) ks : forall l x, In x (fold_left (fun l k => textend l (f k)) ks l) <-> In x l \/ exists k, In k ks /\ In x (f k).
  Proof.
    induction ks as [|k ks IH]; intros l x; cbn [fold_left].
    - split; [auto|intros [H|(k & [] & _)]; exact H].
    - rewrite IH, textend_in. split.
      + intros [[H|H]|(j & J & H)]; [auto|right; exists k; cbn; auto|right; exists j; cbn; auto].
      + intros [H|(j & [<-|J] & H)]; [auto|auto|right; exists j; auto].
  Qed.
  Lemma with_subclasses_in c i : ~ literal c -> In i (instances_of_with_subclasses ix c) <-> exists k, In (i, v_type V, k) g /\ (k = c \/ In (k, v_sub V, c) g).
  Proof.
    intros N. unfold instances_of_with_subclasses. rewrite fold_textend, (instances_in c i N). split.
    - intros [H|(k & K & H)]; [exists c; auto|]. apply (subclasses_in c k N) in K. exists k. split; [|right; exact K]. apply instances_in in H; [exact H|]. intros X. specialize (G _ _ _ K). destruct k; contradiction.
    - intros (k & H & [->|K]); [left; exact H|]. right. exists k. split; [apply (subclasses_in c k N), K|]. apply instances_in; [|exact H]. intros X. specialize (G _ _ _ K). destruct k; contradiction.
  Qed.
  Lemma map_as_term l x : (forall i, In i l -> ~ literal i) -> In x (map (as_term back) l) <-> In x l.
  Proof.
    intros H. assert (E : map (as_term back) l = l); [|rewrite E; reflexivity]. rewrite <- (map_id l) at 2. apply map_ext_in. intros i I. specialize (H i I). destruct i; [reflexivity|reflexivity|exfalso; apply H; exact Logic.I].
  Qed.
  Lemma subject_plain s p o : In (s, p, o) g -> ~ literal s.
  Proof. intros H X. specialize (G _ _ _ H). destruct s; contradiction. Qed.
  Lemma as_term_plain c : ~ literal c -> as_term back c = c.
  Proof. intros N. destruct c; [reflexivity|reflexivity|exfalso; apply N; exact Logic.I]. Qed.
  Lemma subjects_in p o : exists l, subjects_for g p o = Ok l /\ NoDup l /\ forall s, In s l <-> In (s, p, o) g.
  Proof.
    unfold subjects_for. eexists. split; [reflexivity|]. split; [apply tset_nodup|]. intros s. rewrite tset_in, in_map_iff. split.
    - intros ([[s' p'] o'] & E & H). cbn in E. subst s'. apply filter_In in H. destruct H as [H K]. cbn in K. apply andb_true_iff in K. destruct K as [K1 K2]. apply eqb_true in K1. apply N.eqb_eq in K2. subst. exact H.
    - intros H. exists (s, p, o). split; [reflexivity|]. apply filter_In. split; [exact H|]. cbn. rewrite eqb_refl_t, N.eqb_refl. reflexivity.
  Qed.

  (** what is found for one target *)
  Definition found (tg : target) (t : term) : Prop :=
    match tg with
    | TgNode n => t = n
    | TgClass c => In (t, v_type V, c) g
    | TgImplicit c => exists k, In (t, v_type V, k) g /\ (k = c \/ In (k, v_sub V, c) g)
    | TgSubjectsOf p => exists o, In (t, p, o) g
    | TgObjectsOf p => exists s, In (s, p, t) g
    | TgWrong _ => False
    end.
  Lemma native_found use tg : proper_target back tg ->
    exists l, native g (v_type V) (v_sub V) back (if use : bool then Some ix else None) tg = Ok l /\ NoDup l /\ forall t, In t l <-> found tg t.
  Proof.
    intros P. destruct tg as [n|c|p|p|c|w]; cbn [native found proper_target] in *.
    - destruct P as [P1 P2]. exists [n]. split; [|split; [repeat constructor; intros []|]].
      + unfold target_node. destruct n as [m|m|m]; [reflexivity|destruct P1; exact Logic.I|]. cbn. rewrite (P2 m eq_refl). reflexivity.
      + intros t. cbn. split; [intros [->|[]]; reflexivity|intros ->; auto].
    - unfold target_class. destruct use.
      + eexists. split; [reflexivity|]. split; [apply tset_nodup|]. intros t. rewrite tset_in, map_as_term; [apply instances_in, P|]. intros i I. apply (instances_in c i P) in I. apply (subject_plain _ _ _ I).
      + rewrite (as_term_plain c P). apply subjects_in.
    - eexists. split; [reflexivity|]. split; [apply tset_nodup|]. intros t. rewrite tset_in, in_map_iff. split.
      + intros ([[s q] o] & <- & H). apply filter_In in H. destruct H as [H K]. cbn in *. apply N.eqb_eq in K. subst q. exists o. exact H.
      + intros (o & H). exists (t, p, o). split; [reflexivity|]. apply filter_In. split; [exact H|]. cbn. apply N.eqb_refl.
    - eexists. split; [reflexivity|]. split; [apply tset_nodup|]. intros t. rewrite tset_in, in_map_iff. split.
      + intros ([[s q] o] & <- & H). apply filter_In in H. destruct H as [H K]. cbn in *. apply N.eqb_eq in K. subst q. exists s. exact H.
      + intros (s & H). exists (s, p, t). split; [reflexivity|]. apply filter_In. split; [exact H|]. cbn. apply N.eqb_refl.
    - unfold implicit_class. destruct use.
      + eexists. split; [reflexivity|]. split; [apply tset_nodup|]. intros t. rewrite tset_in, map_as_term; [apply with_subclasses_in, P|]. intros i I. apply (with_subclasses_in c i P) in I. destruct I as (k & I & _). apply (subject_plain _ _ _ I).
      + rewrite (as_term_plain c P). destruct (subjects_in (v_type V) c) as (l & -> & _ & Hl). destruct (subjects_in (v_sub V) c) as (ks & -> & _ & Hk). cbn [bind]. eexists. split; [reflexivity|]. split; [apply tset_nodup|]. intros t.
        rewrite tset_in, in_app_iff, Hl, in_flat_map. split.
        * intros [H|(k & K & H)]; [exists c; auto|]. destruct (subjects_in (v_type V) k) as (l' & E & _ & Hl'). rewrite E in H. exists k. split; [apply Hl', H|right; apply Hk, K].
        * intros (k & H & [->|K]); [left; exact H|right]. exists k. split; [apply Hk, K|]. destruct (subjects_in (v_type V) k) as (l' & E & _ & Hl'). rewrite E. apply Hl', H.
    - destruct P.
  Qed.

  Lemma focus_from each (P : target -> term -> Prop) ts :
    (forall tg, In tg ts -> exists l, each tg = Ok l /\ forall t, In t l <-> P tg t) ->
    exists l, focus_nodes each ts = Ok l /\ NoDup l /\ forall t, In t l <-> exists tg, In tg ts /\ P tg t.
  Proof.
    intros H. unfold focus_nodes.
    assert (X : exists l, focus_nodes_from each ts = Ok l /\ forall t, In t l <-> exists tg, In tg ts /\ P tg t).
    { induction ts as [|tg ts IH]; cbn [focus_nodes_from].
      - exists []. split; [reflexivity|]. intros t. split; [intros []|intros (tg & [] & _)].
      - destruct (H tg (or_introl eq_refl)) as (l & -> & Hl). destruct (IH (fun x X => H x (or_intror X))) as (l' & -> & Hl'). cbn [bind]. exists (l ++ l'). split; [reflexivity|]. intros t. rewrite in_app_iff, Hl, Hl'. split.
        + intros [K|(x & X & K)]; [exists tg; cbn; auto|exists x; cbn; auto].
        + intros (x & [<-|X] & K); [left; exact K|right; exists x; auto]. }
    destruct X as (l & -> & Hl). cbn [bind]. exists (tset l). split; [reflexivity|]. split; [apply tset_nodup|]. intros t. rewrite tset_in. apply Hl.
  Qed.
  Lemma found_sound tg t : found tg t -> is_target V g tg t.
  Proof.
    destruct tg as [n|c|p|p|c|w]; cbn [found is_target]; auto.
    - intros H. exists c. split; [exact H|apply rt_refl].
    - intros (k & H & [E|K]); exists k; (split; [exact H|]); [rewrite E; apply rt_refl|apply rt_step, K].
  Qed.
  Lemma found_complete tg t : shallow_target V g tg -> is_target V g tg t -> found tg t.
  Proof. destruct tg as [n|c|p|p|c|w]; cbn [found is_target shallow_target]; auto. Qed.
End Targets.
