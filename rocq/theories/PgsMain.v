(** The base type of a specification against the choices of the specification. *)
From Coq Require Import List Bool Arith Sorted Lia.
Import ListNotations.
From Verif Require Import PgsModel PgsSpec PgsLemmas.

Lemma yields_nonempty sc s b : yields sc s b -> b_content b <> [].
Proof.
  induction 1 as [|l|t s b D Y IH|s b Y IH|s1 s2 b1 b2 Y1 IH1 Y2 IH2|s1 s2 b1 b2 Y1 IH1 Y2 IH2|s b Y IH|s p b Y IH];
    cbn [type_0 from_label base_union base_combine base_with_open b_content]; try discriminate; auto.
  - intro E. apply app_eq_nil in E as [E _]. auto.
  - now apply combine_set_records_nonempty.
  - intro E. apply app_eq_nil in E as [E _]. auto.
  - now apply combine_set_records_nonempty.
Qed.

Ltac never_empty :=
  exfalso;
  match goal with E : b_content ?b = [], Y : yields _ _ ?b |- _ => exact (yields_nonempty _ _ _ Y E) end.

Lemma yields_closed sc s b t : yields sc s b -> In t (b_content b) -> rt_open t = false.
Proof.
  intro Y; revert t.
  induction Y as [|l|t s b D Y IH|s b Y IH|s1 s2 b1 b2 Y1 IH1 Y2 IH2|s1 s2 b1 b2 Y1 IH1 Y2 IH2|s b Y IH|s p b Y IH];
    intro r; cbn [type_0 from_label base_union base_combine base_with_open b_content]; auto.
  - intros [<-|[]]. reflexivity.
  - intros [<-|[]]. reflexivity.
  - intro H. apply in_app_or in H as [H|[<-|[]]]; auto.
  - intro H. apply combine_set_records_in in H as [[_ H]|[x [y [_ [_ ->]]]]];
      [auto|reflexivity|eapply yields_nonempty; eassumption].
  - intro H. apply in_app_or in H as [H|H]; auto.
  - intro H. apply combine_set_records_in in H as [[_ H]|[x [y [_ [_ ->]]]]];
      [auto|reflexivity|eapply yields_nonempty; eassumption].
Qed.

Lemma yields_sorted sc s b l : yields sc s b -> In l (b_labels b) -> StronglySorted lt l.
Proof.
  intro Y; revert l.
  induction Y as [|x|t s b D Y IH|s b Y IH|s1 s2 b1 b2 Y1 IH1 Y2 IH2|s1 s2 b1 b2 Y1 IH1 Y2 IH2|s b Y IH|s p b Y IH];
    intro l; cbn [type_0 from_label base_union base_combine base_with_open b_labels]; auto.
  - intros [].
  - intros [<-|[]]. repeat constructor.
  - rewrite labels_adds_in, labels_adds_in. cbn [In]. intros [[]|[H|[]]]. auto.
  - intro H. apply combine_label_sets_in in H as [[_ H]|[[_ H]|[l1 [l2 [H1 [H2 ->]]]]]]; auto.
    apply label_extend_sorted; auto.
  - rewrite labels_adds_in, labels_adds_in. cbn [In]. intros [H|[H|[]]]; auto.
  - intro H. apply combine_label_sets_in in H as [[_ []]|[[_ H]|[l1 [l2 [H1 [[] ->]]]]]]; auto.
Qed.

(** ** Specifications without labels, without properties *)

Lemma bare_labels sc s b : bare sc s -> yields sc s b -> b_labels b = [].
Proof.
  intro B; revert b. induction B as [|t _ IH|s _ IH|a c _ IHa _ IHc|a c _ IHa _ IHc|s _ IH|s p _ IH];
    intros b Y; inversion Y; subst; cbn [type_0 base_union base_combine base_with_open b_labels]; eauto.
  - rewrite (IH _ H0). reflexivity.
  - now rewrite (IHa _ H1), (IHc _ H3).
  - now rewrite (IHa _ H1), (IHc _ H3).
  - now rewrite (IH _ H2).
Qed.

Lemma bare_chooses sc s c : bare sc s -> chooses sc s c -> c_labels c = [].
Proof.
  intro B; revert c. induction B as [|t _ IH|s _ IH|a d _ IHa _ IHd|a d _ IHa _ IHd|s _ IH|s p _ IH];
    intros c C; inversion C; subst; cbn [both c_labels]; eauto.
  - now rewrite (IHa _ H1), (IHd _ H3).
  - now rewrite (IH _ H1).
  - now rewrite (IH _ H1).
Qed.

Lemma plain_content rx sc s b t :
  plain sc s -> yields sc s b -> In t (b_content b) -> describes rx t [].
Proof.
  intro B; revert b t. induction B as [|l|u _ IH|s _ IH|a d _ IHa _ IHd|a d _ IHa _ IHd|s _ IH];
    intros b t Y; inversion Y; subst; cbn [type_0 from_label base_union base_combine base_with_open b_content]; eauto.
  - intros [<-|[]]. apply describes_new.
  - intros [<-|[]]. apply describes_new.
  - intro H. apply in_app_or in H as [H|[<-|[]]]; [eauto|apply describes_new].
  - intro H. apply combine_set_records_in in H as [[_ H]|[x [y [Hx [Hy ->]]]]].
    + eauto.
    + apply (describes_combine rx x y [] []); eauto.
    + eapply yields_nonempty; eassumption.
  - intro H. apply in_app_or in H as [H|H]; eauto.
Qed.

Lemma plain_chooses sc s c : plain sc s -> chooses sc s c -> c_asks c = [].
Proof.
  intro B; revert c. induction B as [|l|u _ IH|s _ IH|a d _ IHa _ IHd|a d _ IHa _ IHd|s _ IH];
    intros c C; inversion C; subst; cbn [both c_asks]; eauto.
  now rewrite (IHa _ H1), (IHd _ H3).
Qed.

Lemma labelled_chooses sc s c : labelled sc s -> chooses sc s c -> c_labels c <> [].
Proof.
  intro B; revert c. induction B as [l|t _ IH|a b _ IH|a b _ IH|a b _ IHa _ IHb|s p _ IH];
    intros c C; inversion C; subst; cbn [both c_labels]; try discriminate; eauto.
  - intro E. apply app_eq_nil in E as [E _]. eapply IH; eassumption.
  - intro E. apply app_eq_nil in E as [_ E]. eapply IH; eassumption.
  - intro E. apply app_eq_nil in E as [E _]. eapply IH; eassumption.
  - intro E. apply app_eq_nil in E as [E _]. eapply IH; eassumption.
Qed.

(** ** Soundness *)

(** A label set and a record type of the base type come from one choice. *)
Definition covered (rx : regexes) (sc : schema) (s : spec) (b : base) : Prop :=
  forall t, In t (b_content b) ->
    (forall l, In l (b_labels b) ->
       exists c, chooses sc s c /\ (forall x, In x l <-> In x (c_labels c)) /\ describes rx t (c_asks c)) /\
    (b_labels b = [] ->
       exists c, chooses sc s c /\ c_labels c = [] /\ describes rx t (c_asks c)).

Lemma content_in rx b p t :
  b_content b <> [] -> whole (inner p) ->
  In t (combine_set_records (b_content b) (b_content (pspec_semantics p))) ->
  exists t0 o, In t0 (b_content b) /\ picks (inner p) o /\
    forall o0, describes rx t0 o0 -> describes rx t (o0 ++ o).
Proof.
  intros N W H. apply combine_set_records_in in H; [|exact N].
  rewrite pspec_content in H. destruct W as [E|Sd].
  - destruct H as [[_ H]|[x [y [Hx [Hy ->]]]]].
    + exists t, []. split; [exact H|]. split; [rewrite E; constructor|].
      intros o0 D. now rewrite app_nil_r.
    + destruct p as [q|q]; cbn in E; subst q; cbn in Hy; destruct Hy.
  - destruct H as [[H _]|[x [y [Hx [Hy ->]]]]].
    + exfalso. destruct p as [q|q]; cbn in Sd; apply solid_nonempty in Sd; [congruence|].
      destruct (pv_semantics q); [congruence|discriminate].
    + assert (Y : exists o, picks (inner p) o /\ describes rx y o).
      { destruct p as [q|q]; cbn [inner] in *.
        - now apply pv_semantics_sound.
        - apply in_map_iff in Hy as [z [<- Hz]].
          destruct (pv_semantics_sound rx q z Sd Hz) as [o [P D]]. exists o. split; [exact P|now apply describes_open]. }
      destruct Y as [o [P D]]. exists x, o. split; [exact Hx|]. split; [exact P|].
      intros o0 D0. now apply describes_combine.
Qed.

Lemma chooses_content sc s p c o :
  chooses sc s c -> picks (inner p) o ->
  exists d, chooses sc (LContent s p) d /\ c_labels d = c_labels c /\ c_asks d = c_asks c ++ o.
Proof.
  intros C P. destruct p as [q|q]; cbn [inner] in P; eexists;
    (split; [econstructor; eassumption|cbn [both c_labels c_asks]; split; [apply app_nil_r|reflexivity]]).
Qed.

Lemma yields_covered rx sc s b : apart sc s -> yields sc s b -> covered rx sc s b.
Proof.
  intro A; revert b. induction A as [|l|t _ IH|s A IH PB|a d _ IHa _ IHd|a d _ IHa _ IHd PB|s _ IH|s p _ IH W];
    intros b Y; inversion Y; subst; intros t0 Ht.
  - cbn in Ht. destruct Ht as [<-|[]]. split; [intros l []|]. intros _.
    eexists. split; [constructor|]. split; [reflexivity|apply describes_new].
  - cbn in Ht. destruct Ht as [<-|[]]. split; [|discriminate]. intros l0 [<-|[]].
    eexists. split; [constructor|]. split; [reflexivity|apply describes_new].
  - destruct (IH _ H0 _ H1 _ Ht) as [P Q]. split.
    + intros l Hl. destruct (P l Hl) as [c [C R]]. exists c. split; [econstructor; eassumption|exact R].
    + intro E. destruct (Q E) as [c [C R]]. exists c. split; [econstructor; eassumption|exact R].
  - (* optional *)
    rename b0 into b. specialize (IH _ H0). cbn [base_union b_content type_0] in Ht.
    assert (L : forall l, In l (b_labels (base_union b type_0)) <-> In l (b_labels b)).
    { intro l. cbn [base_union b_labels type_0]. rewrite labels_adds_in, labels_adds_in. cbn. tauto. }
    assert (NL : b_labels (base_union b type_0) = [] <-> b_labels b = []).
    { cbn [base_union b_labels type_0]. rewrite adds_nil. tauto. }
    apply in_app_or in Ht as [Ht|[<-|[]]].
    + destruct (IH _ Ht) as [P Q]. split.
      * intros l Hl. apply L in Hl. destruct (P l Hl) as [c [C R]]. exists c. split; [now constructor|exact R].
      * intro E. apply NL in E. destruct (Q E) as [c [C R]]. exists c. split; [now constructor|exact R].
    + split.
      * intros l Hl. apply L in Hl. destruct PB as [Pl|Ba].
        -- destruct (b_content b) as [|t1 ts] eqn:Eb; [never_empty|].
           destruct (IH t1) as [P _]; [rewrite Eb; now left|].
           destruct (P l Hl) as [c [C [Lc _]]]. exists c. split; [now constructor|]. split; [exact Lc|].
           rewrite (plain_chooses _ _ _ Pl C). apply describes_new.
        -- rewrite (bare_labels _ _ _ Ba H0) in Hl. destruct Hl.
      * intros _. eexists. split; [apply ch_none|]. split; [reflexivity|apply describes_new].
  - (* and *)
    cbn [base_combine b_content b_labels] in *.
    pose proof (IHa _ H1) as Ca. pose proof (IHd _ H3) as Cd.
    apply combine_set_records_in in Ht; [|eapply yields_nonempty; eassumption].
    destruct Ht as [[E _]|[x [y [Hx [Hy ->]]]]]; [never_empty|].
    destruct (Ca _ Hx) as [P1 Q1]. destruct (Cd _ Hy) as [P2 Q2]. split.
    + intros l Hl. apply combine_label_sets_in in Hl as [[E Hl]|[[E Hl]|[l1 [l2 [Hl1 [Hl2 ->]]]]]].
      * destruct (Q1 E) as [c1 [C1 [L1 D1]]]. destruct (P2 _ Hl) as [c2 [C2 [L2 D2]]].
        exists (both c1 c2). split; [now constructor|]. split; [|now apply describes_combine].
        intro z. cbn [both c_labels]. rewrite L1. apply L2.
      * destruct (P1 _ Hl) as [c1 [C1 [L1 D1]]]. destruct (Q2 E) as [c2 [C2 [L2 D2]]].
        exists (both c1 c2). split; [now constructor|]. split; [|now apply describes_combine].
        intro z. cbn [both c_labels]. rewrite L2, app_nil_r. apply L1.
      * destruct (P1 _ Hl1) as [c1 [C1 [L1 D1]]]. destruct (P2 _ Hl2) as [c2 [C2 [L2 D2]]].
        exists (both c1 c2). split; [now constructor|]. split; [|now apply describes_combine].
        intro z. cbn [both c_labels]. rewrite label_extend_in, in_app_iff, L1, L2. tauto.
    + intro E. apply combine_label_sets_nil in E as [E1 E2].
      destruct (Q1 E1) as [c1 [C1 [L1 D1]]]. destruct (Q2 E2) as [c2 [C2 [L2 D2]]].
      exists (both c1 c2). split; [now constructor|]. split; [|now apply describes_combine].
      cbn [both c_labels]. now rewrite L1, L2.
  - (* or *)
    pose proof (IHa _ H1) as Ca. pose proof (IHd _ H3) as Cd.
    assert (L : forall l, In l (b_labels (base_union b1 b2)) <-> In l (b_labels b1) \/ In l (b_labels b2)).
    { intro l. cbn [base_union b_labels]. rewrite labels_adds_in, labels_adds_in. cbn. tauto. }
    assert (NL : b_labels (base_union b1 b2) = [] <-> b_labels b1 = [] /\ b_labels b2 = []).
    { cbn [base_union b_labels]. apply adds_nil. }
    cbn [base_union b_content] in Ht.
    destruct PB as [[Pa Pd]|[Ba Bd]].
    + assert (D : describes rx t0 []).
      { apply in_app_or in Ht as [Ht|Ht];
          [exact (plain_content rx _ _ _ _ Pa H1 Ht)|exact (plain_content rx _ _ _ _ Pd H3 Ht)]. }
      split.
      * intros l Hl. apply L in Hl as [Hl|Hl].
        -- destruct (b_content b1) as [|t1 ts] eqn:Eb; [never_empty|].
           destruct (Ca t1) as [P _]; [rewrite Eb; now left|].
           destruct (P l Hl) as [c [C [Lc _]]]. exists c. split; [now constructor|]. split; [exact Lc|].
           now rewrite (plain_chooses _ _ _ Pa C).
        -- destruct (b_content b2) as [|t1 ts] eqn:Eb; [never_empty|].
           destruct (Cd t1) as [P _]; [rewrite Eb; now left|].
           destruct (P l Hl) as [c [C [Lc _]]]. exists c. split; [now apply ch_right|]. split; [exact Lc|].
           now rewrite (plain_chooses _ _ _ Pd C).
      * intro E. apply NL in E as [E1 E2]. apply in_app_or in Ht as [Ht|Ht].
        -- destruct (Ca _ Ht) as [_ Q]. destruct (Q E1) as [c [C R]]. exists c. split; [now constructor|exact R].
        -- destruct (Cd _ Ht) as [_ Q]. destruct (Q E2) as [c [C R]]. exists c. split; [now apply ch_right|exact R].
    + pose proof (bare_labels _ _ _ Ba H1) as E1. pose proof (bare_labels _ _ _ Bd H3) as E2. split.
      * intros l Hl. apply L in Hl. rewrite E1, E2 in Hl. destruct Hl as [[]|[]].
      * intros _. apply in_app_or in Ht as [Ht|Ht].
        -- destruct (Ca _ Ht) as [_ Q]. destruct (Q E1) as [c [C R]]. exists c. split; [now constructor|exact R].
        -- destruct (Cd _ Ht) as [_ Q]. destruct (Q E2) as [c [C R]]. exists c. split; [now apply ch_right|exact R].
  - (* open *)
    cbn [base_with_open b_content b_labels] in *. destruct (IH _ H0 _ Ht) as [P Q]. split.
    + intros l Hl. destruct (P l Hl) as [c [C [L D]]]. eexists. split; [constructor; exact C|]. split; [exact L|exact D].
    + intro E. destruct (Q E) as [c [C [L D]]]. eexists. split; [constructor; exact C|]. split; [exact L|exact D].
  - (* content *)
    cbn [base_combine b_content b_labels] in *.
    destruct (content_in rx b0 p t0) as [t1 [o [H1 [P D]]]];
      [eapply yields_nonempty; eassumption|exact W|exact Ht|].
    destruct (IH _ H2 _ H1) as [P1 Q1].
    assert (LS : combine_label_sets (b_labels b0) (b_labels (pspec_semantics p)) = b_labels b0).
    { cbn [pspec_semantics b_labels]. destruct (b_labels b0); reflexivity. }
    rewrite LS. split.
    + intros l Hl. destruct (P1 l Hl) as [c [C [L Dc]]].
      destruct (chooses_content sc s p c o C P) as [d [Cd [Ld Ad]]]. exists d. split; [exact Cd|].
      rewrite Ld, Ad. split; [exact L|now apply D].
    + intro E. destruct (Q1 E) as [c [C [L Dc]]].
      destruct (chooses_content sc s p c o C P) as [d [Cd [Ld Ad]]]. exists d. split; [exact Cd|].
      rewrite Ld, Ad. split; [exact L|now apply D].
Qed.

(** Without any condition on alternatives, labels and contents are right one by one. *)
Inductive sober (sc : schema) : spec -> Prop :=
| so_empty : sober sc LEmpty
| so_label l : sober sc (LLabel l)
| so_ref t : (forall s, defined sc t s -> sober sc s) -> sober sc (LRef t)
| so_optional s : sober sc s -> sober sc (LOptional s)
| so_and a b : sober sc a -> sober sc b -> sober sc (LAnd a b)
| so_or a b : sober sc a -> sober sc b -> sober sc (LOr a b)
| so_open s : sober sc s -> sober sc (LOpen s)
| so_content s p : sober sc s -> whole (inner p) -> sober sc (LContent s p).

Lemma yields_some sc s b :
  sober sc s -> yields sc s b -> exists c, chooses sc s c /\ (b_labels b = [] -> c_labels c = []).
Proof.
  intro A; revert b. induction A as [|l|t _ IH|s A IH|a d _ IHa _ IHd|a d _ IHa _ IHd|s _ IH|s p _ IH W];
    intros b Y; inversion Y; subst.
  - eexists. split; [constructor|]. intros _; reflexivity.
  - eexists. split; [constructor|]. discriminate.
  - destruct (IH _ H0 _ H1) as [c [C E]]. exists c. split; [econstructor; eassumption|exact E].
  - eexists. split; [apply ch_none|]. intros _; reflexivity.
  - destruct (IHa _ H1) as [c [C E]]. destruct (IHd _ H3) as [c' [C' E']].
    exists (both c c'). split; [now constructor|]. cbn [base_combine b_labels both c_labels].
    intro N. apply combine_label_sets_nil in N as [N N']. now rewrite E, E'.
  - destruct (IHa _ H1) as [c [C E]]. exists c. split; [now constructor|].
    cbn [base_union b_labels]. intro N. apply adds_nil in N as [N _]. auto.
  - destruct (IH _ H0) as [c [C E]]. eexists. split; [constructor; exact C|exact E].
  - destruct (IH _ H2) as [c [C E]].
    assert (P : exists o, picks (inner p) o).
    { destruct W as [->|Sd]; [exists []; constructor|].
      pose proof (solid_nonempty _ Sd) as N. destruct (pv_semantics (inner p)) as [|t ts] eqn:Ep; [congruence|].
      destruct (pv_semantics_sound (fun _ _ => None) (inner p) t Sd) as [o [P _]]; [rewrite Ep; now left|]. eauto. }
    destruct P as [o P]. destruct (chooses_content sc s p c o C P) as [d [Cd [Ld _]]].
    exists d. split; [exact Cd|]. rewrite Ld. cbn [base_combine b_labels pspec_semantics].
    destruct (b_labels b0); [auto|discriminate].
Qed.

Lemma yields_label sc s b l :
  sober sc s -> yields sc s b -> In l (b_labels b) ->
  exists c, chooses sc s c /\ (forall x, In x l <-> In x (c_labels c)).
Proof.
  intro A; revert b l. induction A as [|k|t _ IH|s A IH|a d Sa IHa Sd IHd|a d _ IHa _ IHd|s _ IH|s p _ IH W];
    intros b l Y; inversion Y; subst; intro Hl.
  - destruct Hl.
  - destruct Hl as [<-|[]]. eexists. split; [constructor|]. reflexivity.
  - destruct (IH _ H0 _ _ H1 Hl) as [c [C E]]. exists c. split; [econstructor; eassumption|exact E].
  - cbn [base_union b_labels type_0] in Hl. rewrite labels_adds_in, labels_adds_in in Hl.
    destruct Hl as [[]|[Hl|[]]]. destruct (IH _ _ H0 Hl) as [c [C E]]. exists c. split; [now constructor|exact E].
  - cbn [base_combine b_labels] in Hl.
    apply combine_label_sets_in in Hl as [[N Hl]|[[N Hl]|[l1 [l2 [Hl1 [Hl2 ->]]]]]].
    + destruct (yields_some _ _ _ Sa H1) as [c1 [C1 E1]]. destruct (IHd _ _ H3 Hl) as [c2 [C2 E2]].
      exists (both c1 c2). split; [now constructor|]. intro x. cbn [both c_labels]. rewrite (E1 N). apply E2.
    + destruct (yields_some _ _ _ Sd H3) as [c2 [C2 E2]]. destruct (IHa _ _ H1 Hl) as [c1 [C1 E1]].
      exists (both c1 c2). split; [now constructor|]. intro x. cbn [both c_labels]. rewrite (E2 N), app_nil_r. apply E1.
    + destruct (IHa _ _ H1 Hl1) as [c1 [C1 E1]]. destruct (IHd _ _ H3 Hl2) as [c2 [C2 E2]].
      exists (both c1 c2). split; [now constructor|]. intro x. cbn [both c_labels].
      rewrite label_extend_in, in_app_iff, E1, E2. tauto.
  - cbn [base_union b_labels] in Hl. rewrite labels_adds_in, labels_adds_in in Hl.
    destruct Hl as [Hl|[Hl|[]]].
    + destruct (IHd _ _ H3 Hl) as [c [C E]]. exists c. split; [now apply ch_right|exact E].
    + destruct (IHa _ _ H1 Hl) as [c [C E]]. exists c. split; [now constructor|exact E].
  - destruct (IH _ _ H0 Hl) as [c [C E]]. eexists. split; [constructor; exact C|exact E].
  - assert (Hl' : In l (b_labels b0)).
    { cbn [base_combine b_labels pspec_semantics] in Hl. destruct (b_labels b0); exact Hl. }
    destruct (IH _ _ H2 Hl') as [c [C E]].
    assert (P : exists o, picks (inner p) o).
    { destruct W as [->|Sd]; [exists []; constructor|].
      pose proof (solid_nonempty _ Sd) as N. destruct (pv_semantics (inner p)) as [|t ts] eqn:Ep; [congruence|].
      destruct (pv_semantics_sound (fun _ _ => None) (inner p) t Sd) as [o [P _]]; [rewrite Ep; now left|]. eauto. }
    destruct P as [o P]. destruct (chooses_content sc s p c o C P) as [d [Cd [Ld _]]].
    exists d. split; [exact Cd|]. rewrite Ld. exact E.
Qed.

Lemma yields_record rx sc s b t :
  sober sc s -> yields sc s b -> In t (b_content b) ->
  exists c, chooses sc s c /\ describes rx t (c_asks c).
Proof.
  intro A; revert b t. induction A as [|k|u _ IH|s A IH|a d Sa IHa Sd IHd|a d _ IHa _ IHd|s _ IH|s p _ IH W];
    intros b t Y; inversion Y; subst; intro Ht.
  - destruct Ht as [<-|[]]. eexists. split; [constructor|apply describes_new].
  - destruct Ht as [<-|[]]. eexists. split; [constructor|apply describes_new].
  - destruct (IH _ H0 _ _ H1 Ht) as [c [C D]]. exists c. split; [econstructor; eassumption|exact D].
  - cbn [base_union b_content type_0] in Ht. apply in_app_or in Ht as [Ht|[<-|[]]].
    + destruct (IH _ _ H0 Ht) as [c [C D]]. exists c. split; [now constructor|exact D].
    + eexists. split; [apply ch_none|apply describes_new].
  - cbn [base_combine b_content] in Ht.
    apply combine_set_records_in in Ht; [|eapply yields_nonempty; eassumption].
    destruct Ht as [[E _]|[x [y [Hx [Hy ->]]]]]; [never_empty|].
    destruct (IHa _ _ H1 Hx) as [c1 [C1 D1]]. destruct (IHd _ _ H3 Hy) as [c2 [C2 D2]].
    exists (both c1 c2). split; [now constructor|now apply describes_combine].
  - cbn [base_union b_content] in Ht. apply in_app_or in Ht as [Ht|Ht].
    + destruct (IHa _ _ H1 Ht) as [c [C D]]. exists c. split; [now constructor|exact D].
    + destruct (IHd _ _ H3 Ht) as [c [C D]]. exists c. split; [now apply ch_right|exact D].
  - destruct (IH _ _ H0 Ht) as [c [C D]]. eexists. split; [constructor; exact C|exact D].
  - cbn [base_combine b_content] in Ht.
    destruct (content_in rx b0 p t) as [t1 [o [H1 [P D]]]];
      [eapply yields_nonempty; eassumption|exact W|exact Ht|].
    destruct (IH _ _ H2 H1) as [c [C Dc]].
    destruct (chooses_content sc s p c o C P) as [d [Cd [_ Ad]]]. exists d. split; [exact Cd|].
    rewrite Ad. now apply D.
Qed.

(** ** Completeness *)

Definition found (rx : regexes) (b : base) (c : choice) : Prop :=
  c_open_labels c = false /\ c_open_keys c = false /\
  (c_labels c = [] /\ b_labels b = [] \/ In (labels_from (c_labels c)) (b_labels b)) /\
  exists t, In t (b_content b) /\ describes rx t (c_asks c).

Lemma labels_from_app l1 l2 :
  labels_from (l1 ++ l2) = label_extend (labels_from l1) (labels_from l2).
Proof.
  apply sorted_ext.
  - apply label_extend_sorted. constructor.
  - apply label_extend_sorted, label_extend_sorted. constructor.
  - intro x. unfold labels_from. rewrite !label_extend_in, in_app_iff. cbn [In]. tauto.
Qed.

Lemma yields_found rx sc s b c :
  settled sc s -> yields sc s b -> chooses sc s c -> found rx b c.
Proof.
  intro A; revert b c. induction A as [|l|t _ IH|s A IH B|a d _ IHa _ IHd|a d _ IHa _ IHd LB|s p _ IH W];
    intros b c Y; inversion Y; subst; intro C.
  - inversion C; subst. split; [reflexivity|]. split; [reflexivity|]. split; [left; split; reflexivity|].
    exists rt_new. split; [now left|apply describes_new].
  - inversion C; subst. split; [reflexivity|]. split; [reflexivity|]. split; [right; now left|].
    exists rt_new. split; [now left|apply describes_new].
  - inversion C; subst. match goal with D : defined sc t ?x, D' : defined sc t ?y, Z : chooses sc ?y c |- _ =>
      assert (x = y) as <- by exact (defined_one _ _ _ _ D D'); exact (IH _ D _ _ H1 Z) end.
  - pose proof (bare_labels _ _ _ B H0) as E0.
    assert (E : b_labels (base_union b0 type_0) = []).
    { cbn [base_union b_labels type_0]. now rewrite E0. }
    inversion C; subst.
    + destruct (IH _ _ H0 H1) as [O1 [O2 [_ [t [Ht D]]]]]. split; [exact O1|]. split; [exact O2|].
      split; [left; split; [eapply bare_chooses; eassumption|exact E]|].
      exists t. split; [apply in_app_iff; auto|exact D].
    + split; [reflexivity|]. split; [reflexivity|]. split; [left; split; [reflexivity|exact E]|].
      exists rt_new. split; [apply in_app_iff; right; now left|apply describes_new].
  - inversion C; subst.
    destruct (IHa _ _ H1 H2) as [O1 [O2 [L [t [Ht D]]]]].
    destruct (IHd _ _ H3 H5) as [O1' [O2' [L' [t' [Ht' D']]]]].
    split; [cbn [both c_open_labels]; now rewrite O1, O1'|].
    split; [cbn [both c_open_keys]; now rewrite O2, O2'|]. split.
    + cbn [both c_labels base_combine b_labels]. rewrite combine_label_sets_nil.
      destruct L as [[E N]|L]; destruct L' as [[E' N']|L'].
      * left. now rewrite E, E', N, N'.
      * right. rewrite E. apply combine_label_sets_in. auto.
      * right. rewrite E', app_nil_r. apply combine_label_sets_in. auto.
      * right. apply combine_label_sets_in. right. right. exists (labels_from (c_labels c1)), (labels_from (c_labels c2)).
        split; [exact L|]. split; [exact L'|apply labels_from_app].
    + exists (rt_combine t t'). split; [|now apply describes_combine].
      cbn [base_combine b_content]. apply combine_set_records_in; [eapply yields_nonempty; eassumption|].
      right. exists t, t'. auto.
  - assert (LS : forall l, In l (b_labels (base_union b1 b2)) <-> In l (b_labels b1) \/ In l (b_labels b2)).
    { intro l. cbn [base_union b_labels]. rewrite labels_adds_in, labels_adds_in. cbn. tauto. }
    assert (NL : b_labels b1 = [] -> b_labels b2 = [] -> b_labels (base_union b1 b2) = []).
    { intros E1 E2. cbn [base_union b_labels]. now rewrite E1, E2. }
    inversion C; subst.
    + destruct (IHa _ _ H1 H4) as [O1 [O2 [L [t [Ht D]]]]].
      split; [exact O1|]. split; [exact O2|]. split; [|exists t; split; [apply in_app_iff; auto|exact D]].
      destruct LB as [[La Ld]|[Ba Bd]].
      * destruct L as [[E _]|L]; [now apply (labelled_chooses _ _ _ La) in H4|]. right. apply LS. auto.
      * left. split; [exact (bare_chooses _ _ _ Ba H4)|].
        apply NL; [exact (bare_labels _ _ _ Ba H1)|exact (bare_labels _ _ _ Bd H3)].
    + destruct (IHd _ _ H3 H4) as [O1 [O2 [L [t [Ht D]]]]].
      split; [exact O1|]. split; [exact O2|]. split; [|exists t; split; [apply in_app_iff; auto|exact D]].
      destruct LB as [[La Ld]|[Ba Bd]].
      * destruct L as [[E _]|L]; [now apply (labelled_chooses _ _ _ Ld) in H4|]. right. apply LS. auto.
      * left. split; [exact (bare_chooses _ _ _ Bd H4)|].
        apply NL; [exact (bare_labels _ _ _ Ba H1)|exact (bare_labels _ _ _ Bd H3)].
  - inversion C; subst.
    destruct (IH _ _ H2 H1) as [O1 [O2 [L [t [Ht D]]]]].
    split; [cbn [both c_open_labels]; now rewrite O1|]. split; [cbn [both c_open_keys]; now rewrite O2|].
    assert (N : b_content b0 <> []) by (eapply yields_nonempty; eassumption).
    split.
    + cbn [both c_labels base_combine b_labels pspec_semantics]. rewrite app_nil_r.
      destruct (b_labels b0); exact L.
    + cbn [both c_asks base_combine b_content pspec_semantics]. destruct W as [->|Sd].
      * assert (o = []) as -> by (now inversion H4). exists t. rewrite app_nil_r. split; [|exact D].
        cbn [pv_semantics]. destruct (b_content b0); exact Ht.
      * destruct (pv_semantics_complete rx _ _ Sd H4) as [t' [Ht' D']].
        exists (rt_combine t t'). split; [|now apply describes_combine].
        apply combine_set_records_in; [exact N|]. right. exists t, t'. auto.
Qed.

(** ** Nodes *)

Lemma accepted_sound rx sc s b n :
  apart sc s -> yields sc s b -> good_node n ->
  is_right (base_conforms rx b (n_labels n) (n_content n)) = true -> conforming rx sc s n.
Proof.
  intros A Y [Gl Gr] H. apply (base_conforms_ok rx b _ _ Gr) in H as [Hl [t [Ht Hs]]].
  destruct (yields_covered rx _ _ _ A Y t Ht) as [P _]. destruct (P _ Hl) as [c [C [L D]]].
  exists c. split; [exact C|]. split.
  - split; [intros x Hx; now apply L|]. right. intros x Hx. now apply L.
  - eapply describes_sound; [exact D|eapply yields_closed; eassumption|reflexivity|exact Hs].
Qed.

Lemma accepted_complete rx sc s b n :
  settled sc s -> labelled sc s -> yields sc s b -> good_node n -> conforming rx sc s n ->
  is_right (base_conforms rx b (n_labels n) (n_content n)) = true.
Proof.
  intros A La Y [Gl Gr] [c [C [[L1 L2] R]]]. apply (base_conforms_ok rx b _ _ Gr).
  destruct (yields_found rx _ _ _ _ A Y C) as [O1 [O2 [L [t [Ht D]]]]]. split.
  - destruct L as [[E _]|L]; [now apply (labelled_chooses _ _ _ La) in C|].
    assert (n_labels n = labels_from (c_labels c)) as ->; [|exact L].
    apply sorted_ext; [exact Gl|apply label_extend_sorted; constructor|].
    destruct L2 as [L2|L2]; [congruence|]. intro x. unfold labels_from. rewrite label_extend_in. cbn [In].
    split; [auto|]. intros [[]|H]. auto.
  - exists t. split; [exact Ht|]. eapply describes_complete; [exact Gr|exact D|reflexivity|exact O2|exact R].
Qed.

(** ** The end of runs *)

Lemma yields_ends sc s b : yields sc s b -> ends sc s.
Proof.
  induction 1 as [|l|t s b D Y IH|s b Y IH|s1 s2 b1 b2 Y1 IH1 Y2 IH2|s1 s2 b1 b2 Y1 IH1 Y2 IH2|s b Y IH|s p b Y IH];
    try (now constructor).
  constructor. intros s' D'. now rewrite (defined_one _ _ _ _ D' D).
Qed.

(** A specification whose references end does not come back to a type it is in. *)
Lemma ends_loop sc s : ends sc s -> forall t, below sc s t -> forall s', defined sc t s' -> ~ below sc s' t.
Proof.
  induction 1 as [|l|t E IH|s E IH|a b Ea IHa Eb IHb|a b Ea IHa Eb IHb|s E IH|s p E IH]; intros u B s' D;
    inversion B; subst; eauto.
  intro L. exact (IH _ D _ L _ D L).
Qed.

Lemma rbind_some {A B} (x : run A) (f : A -> run B) :
  x <> None -> (forall a, f a <> None) -> rbind x f <> None.
Proof. destruct x as [[a|e]|]; cbn; congruence. Qed.

Lemma semantics_optional sc f s :
  semantics sc f (LOptional s) = rbind (semantics sc f s) (fun b => Some (Ok (base_union b type_0))).
Proof. now destruct f. Qed.
Lemma semantics_and sc f s1 s2 :
  semantics sc f (LAnd s1 s2) =
  rbind (semantics sc f s1) (fun b1 => rbind (semantics sc f s2) (fun b2 => Some (Ok (base_combine b1 b2)))).
Proof. now destruct f. Qed.
Lemma semantics_or sc f s1 s2 :
  semantics sc f (LOr s1 s2) =
  rbind (semantics sc f s1) (fun b1 => rbind (semantics sc f s2) (fun b2 => Some (Ok (base_union b1 b2)))).
Proof. now destruct f. Qed.
Lemma semantics_open sc f s :
  semantics sc f (LOpen s) = rbind (semantics sc f s) (fun b => Some (Ok (base_with_open b))).
Proof. now destruct f. Qed.
Lemma semantics_content sc f s p :
  semantics sc f (LContent s p) =
  rbind (semantics sc f s) (fun b => Some (Ok (base_combine b (pspec_semantics p)))).
Proof. now destruct f. Qed.

Lemma ends_run sc s : ends sc s -> forall seen,
  NoDup seen -> incl seen (map fst (node_names sc)) -> (forall t, below sc s t -> ~ In t seen) ->
  semantics sc (length (node_names sc) - length seen) s <> None.
Proof.
  induction 1 as [|l|t E IH|s E IH|a b Ea IHa Eb IHb|a b Ea IHa Eb IHb|s E IH|s p E IH]; intros seen N I H.
  - destruct (_ - _); discriminate.
  - destruct (_ - _); discriminate.
  - assert (K : forall f, semantics sc f (LRef t) =
                match get_node_semantics sc t with
                | Err e => Some (Err e)
                | Ok s' => match f with O => None | S f => semantics sc f s' end
                end) by (intros [|f]; reflexivity).
    rewrite K. destruct (get_node_semantics sc t) as [s'|e] eqn:D; [|discriminate].
    apply get_node_ok in D.
    assert (T : In t (map fst (node_names sc))).
    { destruct D as [i [D _]]. apply lookup_in, (in_map fst) in D. exact D. }
    assert (Nt : NoDup (t :: seen)) by (constructor; [apply H; constructor|exact N]).
    assert (It : incl (t :: seen) (map fst (node_names sc))) by (intros x [<-|Hx]; auto).
    pose proof (NoDup_incl_length Nt It) as Le. rewrite map_length in Le. cbn [length] in Le.
    destruct (length (node_names sc) - length seen) as [|f] eqn:F; [lia|].
    replace f with (length (node_names sc) - length (t :: seen)) by (cbn [length]; lia).
    apply (IH s' D); [exact Nt|exact It|]. intros u U [<-|Hu].
    + exact (ends_loop sc s' (E s' D) t U s' D U).
    + refine (H u _ Hu). econstructor; eassumption.
  - rewrite semantics_optional. apply rbind_some; [|discriminate]. apply IH; [exact N|exact I|]. intros u U; apply H; now constructor.
  - rewrite semantics_and. apply rbind_some; [|intro x; apply rbind_some; [|discriminate]].
    + apply IHa; [exact N|exact I|]. intros u U; apply H; now constructor.
    + apply IHb; [exact N|exact I|]. intros u U; apply H; now apply be_and_right.
  - rewrite semantics_or. apply rbind_some; [|intro x; apply rbind_some; [|discriminate]].
    + apply IHa; [exact N|exact I|]. intros u U; apply H; now constructor.
    + apply IHb; [exact N|exact I|]. intros u U; apply H; now apply be_or_right.
  - rewrite semantics_open. apply rbind_some; [|discriminate]. apply IH; [exact N|exact I|]. intros u U; apply H; now constructor.
  - rewrite semantics_content. apply rbind_some; [|discriminate]. apply IH; [exact N|exact I|]. intros u U; apply H; now constructor.
Qed.

Lemma rbind_err {A B} (x : run A) (f : A -> run B) e :
  rbind x f = Some (Err e) -> x = Some (Err e) \/ exists a, x = Some (Ok a) /\ f a = Some (Err e).
Proof. destruct x as [[a|e']|]; cbn; intro H; [right; eauto|left; congruence|discriminate]. Qed.

Lemma linked_no_error sc fuel s e : linked sc s -> semantics sc fuel s <> Some (Err e).
Proof.
  revert s; induction fuel as [|f IHf]; intro s;
    (induction s as [|l|t|s IH|s1 IH1 s2 IH2|s1 IH1 s2 IH2|s IH|s IH p]; intro L; cbn [semantics];
     [discriminate|discriminate| 
     |intro R; apply rbind_err in R as [R|[a [_ R]]]; [|discriminate]; revert R; apply IH; intros u U; apply L; now constructor
     |intro R; apply rbind_err in R as [R|[a [_ R]]];
        [revert R; apply IH1; intros u U; apply L; now constructor
        |apply rbind_err in R as [R|[a' [_ R]]]; [|discriminate]; revert R; apply IH2; intros u U; apply L; now apply be_and_right]
     |intro R; apply rbind_err in R as [R|[a [_ R]]];
        [revert R; apply IH1; intros u U; apply L; now constructor
        |apply rbind_err in R as [R|[a' [_ R]]]; [|discriminate]; revert R; apply IH2; intros u U; apply L; now apply be_or_right]
     |intro R; apply rbind_err in R as [R|[a [_ R]]]; [|discriminate]; revert R; apply IH; intros u U; apply L; now constructor
     |intro R; apply rbind_err in R as [R|[a [_ R]]]; [|discriminate]; revert R; apply IH; intros u U; apply L; now constructor]).
  - destruct (L t (be_here _ t)) as [s' D]. apply get_node_ok in D. rewrite D. discriminate.
  - destruct (L t (be_here _ t)) as [s' D]. pose proof D as D'. apply get_node_ok in D. rewrite D.
    apply IHf. intros u U. apply L. econstructor; eassumption.
Qed.

(** No label set of a base type is empty. *)
Lemma yields_no_empty sc s b : yields sc s b -> ~ In [] (b_labels b).
Proof.
  induction 1 as [|l|t s b D Y IH|s b Y IH|s1 s2 b1 b2 Y1 IH1 Y2 IH2|s1 s2 b1 b2 Y1 IH1 Y2 IH2|s b Y IH|s p b Y IH];
    cbn [type_0 from_label base_union base_combine base_with_open b_labels]; auto.
  - intros [E|[]]. discriminate.
  - rewrite labels_adds_in, labels_adds_in. cbn [In]. tauto.
  - intro H. apply combine_label_sets_in in H as [[_ H]|[[_ H]|[l1 [l2 [H1 [H2 E]]]]]]; auto.
    destruct l1 as [|x l1]; [auto|]. assert (X : In x (label_extend (x :: l1) l2)).
    { apply label_extend_in. left. now left. }
    rewrite <- E in X. destruct X.
  - rewrite labels_adds_in, labels_adds_in. cbn [In]. tauto.
  - intro H. apply combine_label_sets_in in H as [[_ []]|[[_ H]|[l1 [l2 [H1 [[] E]]]]]]; auto.
Qed.
