(** Shapes that are read from a usable shapes graph are fit for compilation. *)
From Coq Require Import List Bool NArith ZArith Lia Permutation.
Import ListNotations.
From Verif Require Import PathModel PathSpec PathLemmas ProgModel ShaclModel ShaclSpec GraphModel GraphSpec LevelModel LevelSpec.
From Verif Require Import PathModel ShaclModel ShcModel ShcSpec TgtModel TgtSpec.
From Verif Require Import ReportModel ReportSpec ReportLemmas RdsModel RdsSpec RdsLemmas.

Section Fit.
  Variable L : lits.
  Variable oc : other -> N.
  Variable pat : N -> option N -> N.
  Variable sev : option severity -> N.
  Variable g : graph.
  Variable regex : N -> bool.
  Variable rank : term -> nat.
  Variable A : ast.
  Hypothesis good : well_formed L g.
  Hypothesis use : usable L pat regex rank g.
  Hypothesis out : spelled_out L oc pat sev g A.
  Notation declared := (declared L oc pat g).

  Lemma nodes_same ts l : Forall2 is_node ts l -> l = ts.
  Proof. intro F. induction F as [|x y ts l [-> _] F IH]; [reflexivity|]. rewrite IH. reflexivity. Qed.
  Lemma node_has s p t : has g is_node s p t -> In (s, p, t) g /\ ~ literal t.
  Proof. intros (o & I & -> & N). auto. Qed.
  Lemma described s a : In (s, a) A -> describes L oc pat sev g s a.
  Proof. apply out. Qed.
  Lemma shape_there t : is_shape g t -> exists b, In (t, b) A.
  Proof. intro H. apply out in H. apply in_map_iff in H. destruct H as ((k & b) & E & I). cbn in E. subst k. eauto. Qed.
  Ltac tab := cbn; repeat (first [left; reflexivity|right]).
  Lemma by_value s p t : In p expects_shape -> In (s, p, t) g -> ~ literal t -> needs_shape L g s t /\ is_shape g t.
  Proof. intros T I N. split; [left; eauto|]. right. right. left. eauto 6. Qed.
  Lemma by_list s p l t : In p expects_shapes -> has g (is_list g is_node) s p l -> In t l -> needs_shape L g s t /\ is_shape g t.
  Proof. intros T (o & I & ts & R & F) It. rewrite (nodes_same _ _ F) in It. split; [right; left; eauto 7|]. right. right. right. exists s, p, o, ts. auto. Qed.
  Lemma value_node s p t : In (p, some is_node) (kinds L g) -> In (s, p, t) g -> ~ literal t.
  Proof. intros T I. destruct (wf_kinds _ _ good _ _ _ _ I T) as (y & _ & N). exact N. Qed.
  Lemma refs_needed s a j : In (s, a) A -> In j (arefs a) -> needs_shape L g s j /\ is_shape g j.
  Proof.
    intros I J. pose proof (described s a I) as D. unfold arefs in J. apply in_app_iff in J. destruct J as [J|J]; [|apply in_app_iff in J; destruct J as [J|J]].
    - apply in_flat_map in J. destruct J as (c & Ic & J). apply (d_sound _ _ _ _ _ _ _ D) in Ic. destruct c; cbn in J; try contradiction; cbn in Ic.
      + apply (by_list s sh_or l); [tab|exact Ic|exact J].
      + apply (by_list s sh_and l); [tab|exact Ic|exact J].
      + apply (by_list s sh_xone l); [tab|exact Ic|exact J].
      + destruct J as [<-|[]]. apply node_has in Ic. apply (by_value s sh_not); [tab|apply Ic|apply Ic].
      + destruct J as [<-|[]]. apply node_has in Ic. apply (by_value s sh_node); [tab|apply Ic|apply Ic].
      + destruct Ic as (Ht & _ & _ & _ & Hs). destruct J as [<-|J].
        * apply node_has in Ht. apply (by_value s sh_qualified); [tab|apply Ht|apply Ht].
        * apply Hs in J. split; [right; right; exact J|]. destruct J as (_ & _ & parent & q & _ & _ & Iq). right. right. left. exists q, sh_qualified. split; [tab|]. split; [exact Iq|].
          apply (value_node q sh_qualified); [tab|exact Iq].
    - apply (d_props _ _ _ _ _ _ _ D) in J. apply (by_value s sh_property); [tab|exact J|]. apply (value_node s sh_property); [tab|exact J].
    - unfold reifier_refs in J. pose proof (d_reifier _ _ _ _ _ _ _ D) as R. destruct (a_path a); [|destruct J]. destruct (a_reifier a) as [[b l]|]; [|destruct J]. destruct R as (_ & R & _).
      apply R in J. apply (by_value s sh_reifier); [tab|exact J|]. apply (value_node s sh_reifier); [tab|exact J].
  Qed.
  Lemma fit_written : well_written regex A.
  Proof.
    intros s a I. pose proof (described s a I) as D. refine (conj _ (conj _ (conj _ _))).
    - intros j J. apply shape_there. apply (refs_needed s a j I J).
    - intros c Ic. apply (d_sound _ _ _ _ _ _ _ D) in Ic. destruct c as [t|[d|d]|k|k|z|z|b|[p|p]|[p|p]|[] [p|p]|l|l|l|t|t|b l|v|l|t qmin qmax d sib|b]; cbn in *; try contradiction; try exact Logic.I; try (eexists; reflexivity).
      + destruct Ic as (x & f & Hx & Hf & ->). exact (u_regex _ _ _ _ _ use _ _ _ Hx Hf).
      + destruct Ic as ([n|n|n] & _ & H); cbn in H; [subst v; exists n; reflexivity|contradiction|]. destruct H as (m & _ & ->). exact Logic.I.
      + intros v Iv. destruct Ic as (o & _ & ts & _ & F). destruct (forall2_right _ _ _ _ F Iv) as ([n|n|n] & _ & H); cbn in H; [subst v; exists n; reflexivity|contradiction|]. destruct H as (m & _ & ->). exact Logic.I.
    - intros _ j b J Ib E. apply (d_props _ _ _ _ _ _ _ D) in J. destruct (u_property _ _ _ _ _ use _ _ J) as (t & It). pose proof (d_path _ _ _ _ _ _ _ (described j b Ib)) as P. rewrite E in P. exact (P t It).
    - intros p r Ep Er. pose proof (d_path _ _ _ _ _ _ _ D) as P. pose proof (d_reifier _ _ _ _ _ _ _ D) as R. rewrite Ep in P, R. rewrite Er in R. destruct r as [b l]. destruct R as (NE & R & _).
      destruct l as [|j l]; [congruence|]. apply (u_reifier _ _ _ _ _ use s j); [apply R; left; reflexivity|exact P].
  Qed.
  Lemma fit_ranked : TgtSpec.ranked A rank.
  Proof. intros s a j I J. apply (u_ranks _ _ _ _ _ use). apply (refs_needed s a j I J). Qed.
  Lemma fit_distinct : ShcSpec.distinct A.
  Proof. apply out. Qed.
  Lemma closed_det s b l b' l' : declared s (AClosed b l) -> declared s (AClosed b' l') -> b = b' /\ l = l'.
  Proof.
    intros [Hb Hl] [Hb' Hl']. split; [exact (single_det L g good s _ _ sh_closed b b' (conv_bool L) ltac:(tab) Hb Hb')|].
    destruct Hl as [(o & I & H)|[N ->]], Hl' as [(o' & I' & H')|[N' ->]]; try reflexivity.
    - rewrite (wf_singles _ _ good s sh_ignored o o' ltac:(tab) I I') in H.
      eapply is_list_det; [exact good|exact (wf_kinds _ _ good _ _ _ (chained g is_iri) I' ltac:(tab))|apply (converts_det to_iri); exact conv_iri|exact H|exact H'].
    - destruct (N' o I).
    - destruct (N o' I').
  Qed.
  Lemma fit_tidy : tidy A.
  Proof.
    intros s a I. pose proof (described s a I) as D. pose proof (d_sound _ _ _ _ _ _ _ D) as S. refine (conj _ (conj _ _)).
    - intros z H. apply (u_counts _ _ _ _ _ use s). destruct H as [H|H]; apply S in H; auto.
    - intros b l b' l' H H'. apply S in H, H'. exact (closed_det s b l b' l' H H').
    - intros i qmin qmax d sib H N. apply S in H. destruct H as (_ & _ & _ & Hd & Hs). destruct sib as [|j sib]; [reflexivity|]. destruct (proj1 (Hs j) (or_introl eq_refl)) as (Hj & _).
      destruct N. exact (may_det L g good s _ _ sh_qualified_disjoint d (Some true) (conv_bool L) ltac:(tab) Hd Hj).
  Qed.
End Fit.
