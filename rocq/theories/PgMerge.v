(** Merging two graphs. *)
From Coq Require Import List Bool Arith Sorted Lia.
Import ListNotations.
From Verif Require Import PgsModel PgsSpec PgsLemmas PgsMain PgModel PgSpec PgLemmas.

(** ** The nodes *)

Record nodes_merged (self other : pgraph) (done : list (name * nat)) (h : pgraph) (ids : list (nat * nat)) : Prop := mkNm {
  nm_wf : wf h;
  nm_edges : g_edges h = g_edges self /\ g_edge_names h = g_edge_names self /\ g_edge_counter h = g_edge_counter self;
  nm_keep : forall x i, lookup (g_node_names self) x = Some i -> lookup (g_node_names h) x = Some i;
  nm_only : forall x i, lookup (g_node_names h) x = Some i -> lookup (g_node_names self) x = Some i \/ In x (map fst done);
  nm_rest : forall i n, lookup (g_nodes self) i = Some n ->
    (forall x, In x (map fst done) -> lookup (g_node_names self) x <> Some i) -> lookup (g_nodes h) i = Some n;
  nm_both : forall x o b i a, In (x, o) done -> lookup (g_nodes other) o = Some b ->
    lookup (g_node_names self) x = Some i -> lookup (g_nodes self) i = Some a ->
    exists c, lookup (g_nodes h) i = Some c /\ joined a b c;
  nm_other : forall x o b, In (x, o) done -> lookup (g_nodes other) o = Some b ->
    lookup (g_node_names self) x = None -> named h x b;
  nm_ids : forall o j, lookup ids o = Some j -> exists x, In (x, o) done /\ lookup (g_node_names h) x = Some j;
  nm_all : forall x o, In (x, o) done -> exists j, lookup ids o = Some j
}.

Lemma nodes_merged_start self other : wf self -> nodes_merged self other [] self [].
Proof.
  intro W. split; auto; try (intros; contradiction); try (cbn; intros; discriminate).
Qed.

Lemma nodes_merged_step self other done h ids x o n :
  wf self -> wf other ->
  nodes_merged self other done h ids -> NoDup (map fst (done ++ [(x, o)])) ->
  (forall y p, In (y, p) (done ++ [(x, o)]) -> lookup (g_node_names other) y = Some p) ->
  lookup (g_nodes other) o = Some n ->
  exists h' ids', merge_node other (h, ids) (x, o) = Some (h', ids') /\
    nodes_merged self other (done ++ [(x, o)]) h' ids'.
Proof.
  intros Ws Wo M N D L. pose proof (nm_wf _ _ _ _ _ M) as Wh.
  assert (X : ~ In x (map fst done)).
  { rewrite map_app in N. cbn in N. apply NoDup_remove_2 in N. now rewrite app_nil_r in N. }
  assert (O : forall y, ~ In (y, o) done).
  { intros y I. assert (A : lookup (g_node_names other) y = Some o) by (apply D, in_or_app; now left).
    assert (B : lookup (g_node_names other) x = Some o) by (apply D, in_or_app; right; now left).
    assert (y = x) by (eapply (wf_once _ Wo); eassumption). subst. apply X. now apply (in_map fst) in I. }
  assert (SP : forall y p, In (y, p) (done ++ [(x, o)]) <-> In (y, p) done \/ (y, p) = (x, o)).
  { intros y p. rewrite in_app_iff. cbn [In]. intuition. }
  assert (SK : forall y, In y (map fst (done ++ [(x, o)])) <-> In y (map fst done) \/ y = x).
  { intros y. rewrite map_app, in_app_iff. cbn [In map fst]. intuition. }
  cbn [merge_node]. rewrite L. destruct (lookup (g_node_names h) x) as [eid|] eqn:E.
  - (* a name of [self] *)
    assert (Es : lookup (g_node_names self) x = Some eid).
    { destruct (nm_only _ _ _ _ _ M x eid E) as [H|H]; [exact H|contradiction]. }
    destruct (wf_name _ Wh _ _ E) as [a A]. rewrite A.
    destruct (wf_name _ Ws _ _ Es) as [a0 A0].
    assert (a = a0).
    { rewrite (nm_rest _ _ _ _ _ M eid a0 A0) in A; [congruence|]. intros y Hy Hs.
      assert (y = x) by (eapply (wf_once _ Ws); eassumption). now subst. }
    subst a0. eexists. eexists. split; [reflexivity|]. split; cbn [g_nodes g_edges g_node_names g_edge_names g_node_counter g_edge_counter].
    + split; cbn [g_nodes g_edges g_node_names g_edge_names g_node_counter g_edge_counter]; try apply Wh.
      * apply put_nodup, Wh.
      * intros i m H. rewrite lookup_put in H. destruct (Nat.eqb_spec i eid) as [->|].
        -- injection H as <-. apply (wf_node_ids _ Wh) in A as [? G]. split; [assumption|]. now apply node_merge_good.
        -- now apply (wf_node_ids _ Wh) in H.
      * intros y i H. rewrite lookup_put. destruct (i =? eid); [eauto|]. now apply (wf_name _ Wh) in H.
      * intros i e H. rewrite lookup_put. destruct (_ =? eid); [eauto|]. eapply (wf_source _ Wh), H.
      * intros i e H. rewrite lookup_put. destruct (_ =? eid); [eauto|]. eapply (wf_target _ Wh), H.
    + apply (nm_edges _ _ _ _ _ M).
    + apply (nm_keep _ _ _ _ _ M).
    + intros y i H. destruct (nm_only _ _ _ _ _ M y i H) as [K|K]; [auto|]. right. apply SK. auto.
    + intros i m H K. rewrite lookup_put. destruct (Nat.eqb_spec i eid) as [->|].
      * destruct (K x); [apply SK; auto|exact Es].
      * apply (nm_rest _ _ _ _ _ M); [exact H|]. intros y Hy. apply K, SK. auto.
    + intros y p b i c I Lb Ly Lc. apply SP in I as [I|I].
      * destruct (nm_both _ _ _ _ _ M y p b i c I Lb Ly Lc) as [d [Ld J]]. exists d. split; [|exact J].
        rewrite lookup_put. destruct (Nat.eqb_spec i eid) as [->|]; [|exact Ld].
        assert (y = x) by (eapply (wf_once _ Ws); eassumption). subst. destruct X. now apply (in_map fst) in I.
      * injection I as -> ->. rewrite L in Lb. injection Lb as <-. rewrite Es in Ly. injection Ly as <-.
        rewrite A0 in Lc. injection Lc as <-. exists (node_merge a n). split; [now rewrite lookup_put, Nat.eqb_refl|].
        apply node_merge_joined. now apply (wf_node_ids _ Wh) in A.
    + intros y p b I Lb Ly. apply SP in I as [I|I].
      * destruct (nm_other _ _ _ _ _ M y p b I Lb Ly) as [i [Li Ln]]. exists i. split; [exact Li|].
        cbn [g_nodes]. rewrite lookup_put. destruct (Nat.eqb_spec i eid) as [->|]; [|exact Ln].
        assert (y = x) by (eapply (wf_once _ Wh); eassumption). subst. congruence.
      * injection I as -> ->. congruence.
    + intros p j H. rewrite lookup_put in H. destruct (Nat.eqb_spec p o) as [->|].
      * injection H as <-. exists x. split; [apply SP; now right|exact E].
      * apply (nm_ids _ _ _ _ _ M) in H as [y [I Hy]]. exists y. split; [apply SP; now left|exact Hy].
    + intros y p I. rewrite lookup_put. destruct (Nat.eqb_spec p o) as [->|Np]; [eauto|].
      apply SP in I as [I|I]; [eapply (nm_all _ _ _ _ _ M), I|congruence].
  - (* a new name *)
    assert (Es : lookup (g_node_names self) x = None).
    { destruct (lookup (g_node_names self) x) eqn:Q; [|reflexivity]. apply (nm_keep _ _ _ _ _ M) in Q. congruence. }
    pose proof (fresh_node _ Wh) as F.
    eexists. eexists. split; [reflexivity|]. split; cbn [g_nodes g_edges g_node_names g_edge_names g_node_counter g_edge_counter].
    + apply wf_put_node; [exact Wh|]. now apply (wf_node_ids _ Wo) in L.
    + apply (nm_edges _ _ _ _ _ M).
    + intros y i H. rewrite lookup_put. destruct (Nat.eqb_spec y x) as [->|]; [congruence|]. now apply (nm_keep _ _ _ _ _ M).
    + intros y i H. rewrite lookup_put in H. destruct (Nat.eqb_spec y x) as [->|]; [right; apply SK; now right|].
      destruct (nm_only _ _ _ _ _ M y i H) as [K|K]; [auto|]. right. apply SK. auto.
    + intros i m H K. rewrite lookup_put.
      assert (Q : lookup (g_nodes h) i = Some m).
      { apply (nm_rest _ _ _ _ _ M); [exact H|]. intros y Hy. apply K, SK. auto. }
      destruct (Nat.eqb_spec i (g_node_counter h)) as [->|]; [congruence|exact Q].
    + intros y p b i c I Lb Ly Lc. apply SP in I as [I|I]; [|injection I as -> ->; congruence].
      destruct (nm_both _ _ _ _ _ M y p b i c I Lb Ly Lc) as [d [Ld J]]. exists d. split; [|exact J].
      rewrite lookup_put. destruct (Nat.eqb_spec i (g_node_counter h)) as [->|]; [congruence|exact Ld].
    + intros y p b I Lb Ly. apply SP in I as [I|I].
      * destruct (nm_other _ _ _ _ _ M y p b I Lb Ly) as [i [Li Ln]]. exists i. cbn [g_node_names g_nodes].
        rewrite !lookup_put. split.
        -- destruct (Nat.eqb_spec y x) as [->|]; [congruence|exact Li].
        -- destruct (Nat.eqb_spec i (g_node_counter h)) as [->|]; [congruence|exact Ln].
      * injection I as -> ->. rewrite L in Lb. injection Lb as <-. exists (g_node_counter h). cbn [g_node_names g_nodes].
        rewrite !lookup_put, !Nat.eqb_refl. auto.
    + intros p j H. rewrite lookup_put in H. destruct (Nat.eqb_spec p o) as [->|].
      * injection H as <-. exists x. split; [apply SP; now right|]. now rewrite lookup_put, Nat.eqb_refl.
      * apply (nm_ids _ _ _ _ _ M) in H as [y [I Hy]]. exists y. split; [apply SP; now left|].
        rewrite lookup_put. destruct (Nat.eqb_spec y x) as [->|]; [|exact Hy]. destruct X. now apply (in_map fst) in I.
    + intros y p I. rewrite lookup_put. destruct (Nat.eqb_spec p o) as [->|Np]; [eauto|].
      apply SP in I as [I|I]; [eapply (nm_all _ _ _ _ _ M), I|congruence].
Qed.

Lemma nodes_merged_all self other done rest h ids :
  wf self -> wf other -> g_node_names other = done ++ rest ->
  nodes_merged self other done h ids ->
  exists h' ids', fold_opt (merge_node other) rest (h, ids) = Some (h', ids') /\
    nodes_merged self other (g_node_names other) h' ids'.
Proof.
  intros Ws Wo. revert done h ids. induction rest as [|[x o] rest IH]; intros done h ids E M.
  - rewrite app_nil_r in E. cbn [fold_opt]. rewrite E. eauto.
  - cbn [fold_opt].
    assert (LK : forall y p, In (y, p) (g_node_names other) -> lookup (g_node_names other) y = Some p).
    { intros y p I. apply lookup_nodup; [apply Wo|exact I]. }
    assert (I : In (x, o) (g_node_names other)) by (rewrite E; apply in_or_app; right; now left).
    destruct (wf_name _ Wo x o (LK _ _ I)) as [n L].
    destruct (nodes_merged_step self other done h ids x o n Ws Wo M) as [h' [ids' [S M']]].
    + pose proof (wf_node_names _ Wo) as N. rewrite E in N. rewrite map_app in *. cbn [map fst] in *.
      change (x :: map fst rest) with ([x] ++ map fst rest) in N. rewrite app_assoc in N.
      clear - N. revert N. generalize (map fst done ++ [x]). intros l. induction l as [|a l IH]; cbn [app]; intro N; [constructor|].
      apply NoDup_cons_iff in N as [A N]. constructor; [|auto]. intro I. apply A, in_or_app. now left.
    + intros y p J. apply LK. rewrite E. apply in_app_or in J as [J|[J|[]]]; apply in_or_app; [now left|right; now left].
    + exact L.
    + rewrite S. apply (IH (done ++ [(x, o)])); [|exact M']. now rewrite <- app_assoc.
Qed.

(** ** The edges *)

Lemma rename_lookup names old new acc x : NoDup (map fst names) ->
  lookup (rename_edges names old new acc) x =
  match lookup names x with
  | Some i => if i =? old then Some new else lookup acc x
  | None => lookup acc x
  end.
Proof.
  unfold rename_edges. revert acc. induction names as [|[y i] names IH]; intros acc N; cbn [fold_left lookup fst snd]; [reflexivity|].
  cbn [map fst] in N. apply NoDup_cons_iff in N as [N0 N]. rewrite IH by exact N.
  destruct (Nat.eqb_spec x y) as [->|D].
  - rewrite (proj2 (lookup_none names y)) by exact N0. destruct (i =? old); [|reflexivity].
    now rewrite lookup_put, Nat.eqb_refl.
  - destruct (i =? old); [|reflexivity]. rewrite lookup_put. destruct (Nat.eqb_spec x y); [contradiction|reflexivity].
Qed.

Lemma rename_nodup names old new acc : NoDup (map fst acc) -> NoDup (map fst (rename_edges names old new acc)).
Proof.
  unfold rename_edges. revert acc. induction names as [|[y i] names IH]; intros acc N; cbn [fold_left]; [exact N|].
  apply IH. cbn [fst snd]. destruct (i =? old); [apply put_nodup|]; exact N.
Qed.

Definition carry (other h1 : pgraph) (e e' : edge) : Prop :=
  e_labels e' = e_labels e /\ e_content e' = e_content e /\
  (exists x, lookup (g_node_names other) x = Some (e_source e) /\ lookup (g_node_names h1) x = Some (e_source e')) /\
  (exists y, lookup (g_node_names other) y = Some (e_target e) /\ lookup (g_node_names h1) y = Some (e_target e')).

Record edges_merged (self other h1 : pgraph) (done : list (nat * edge)) (h : pgraph) : Prop := mkEm {
  em_wf : wf h;
  em_nodes : g_nodes h = g_nodes h1 /\ g_node_names h = g_node_names h1;
  em_edges : exists es, g_edges h = g_edges self ++ es /\ Forall2 (fun a b => carry other h1 (snd a) (snd b)) done es;
  em_named : forall x i e, lookup (g_edge_names other) x = Some i -> In (i, e) done ->
    exists j e', lookup (g_edge_names h) x = Some j /\ lookup (g_edges h) j = Some e' /\ carry other h1 e e';
  em_kept : forall x, (forall i e, lookup (g_edge_names other) x = Some i -> ~ In (i, e) done) ->
    lookup (g_edge_names h) x = lookup (g_edge_names self) x
}.

Lemma edges_merged_all self other h1 ids done rest h :
  wf other -> nodes_merged self other (g_node_names other) h1 ids ->
  g_edges other = done ++ rest -> edges_merged self other h1 done h ->
  ((forall i e, In (i, e) rest -> (exists x, lookup (g_node_names other) x = Some (e_source e)) /\
                                  (exists y, lookup (g_node_names other) y = Some (e_target e))) ->
   exists g, fold_opt (merge_edge other ids) rest h = Some g /\ edges_merged self other h1 (g_edges other) g) /\
  (forall g, fold_opt (merge_edge other ids) rest h = Some g ->
   forall i e, In (i, e) rest -> (exists x, lookup (g_node_names other) x = Some (e_source e)) /\
                                 (exists y, lookup (g_node_names other) y = Some (e_target e))).
Proof.
  intros Wo NM. revert done h. induction rest as [|[oi e] rest IH]; intros done h E M.
  - rewrite app_nil_r in E. cbn [fold_opt]. rewrite E. split; [eauto|]. intros g _ i e [].
  - assert (KNOWN : forall p, (exists x, lookup (g_node_names other) x = Some p) <-> exists j, lookup ids p = Some j).
    { intro p. split.
      - intros [x X]. apply (nm_all _ _ _ _ _ NM x). now apply lookup_in.
      - intros [j J]. apply (nm_ids _ _ _ _ _ NM) in J as [x [I _]]. exists x. apply lookup_nodup; [apply Wo|exact I]. }
    assert (NAMED : forall p j, lookup ids p = Some j ->
              exists x, lookup (g_node_names other) x = Some p /\ lookup (g_node_names h1) x = Some j).
    { intros p j J. apply (nm_ids _ _ _ _ _ NM) in J as [x [I X]]. exists x. split; [|exact X].
      apply lookup_nodup; [apply Wo|exact I]. }
    assert (STEP : forall s t, lookup ids (e_source e) = Some s -> lookup ids (e_target e) = Some t ->
              exists h', merge_edge other ids h (oi, e) = Some h' /\ edges_merged self other h1 (done ++ [(oi, e)]) h').
    { intros s t Es Et. cbn [merge_edge]. rewrite Es, Et. eexists. split; [reflexivity|].
      pose proof (em_wf _ _ _ _ _ M) as Wh. destruct (em_nodes _ _ _ _ _ M) as [M1 M2].
      pose proof (fresh_edge _ Wh) as F.
      destruct (NAMED _ _ Es) as [x [X1 X2]]. destruct (NAMED _ _ Et) as [y [Y1 Y2]].
      assert (C : carry other h1 e (mkEdge s t (e_labels e) (e_content e))).
      { split; [reflexivity|]. split; [reflexivity|]. split; [exists x|exists y]; auto. }
      assert (Lo : lookup (g_edges other) oi = Some e).
      { apply lookup_nodup; [apply Wo|]. rewrite E. apply in_or_app. right. now left. }
      assert (Fd : forall e', ~ In (oi, e') done).
      { intros e' I. pose proof (wf_edges _ Wo) as N. rewrite E, map_app in N. cbn [map fst] in N.
        apply NoDup_remove_2 in N. apply N, in_or_app. left. now apply (in_map fst) in I. }
      split; cbn [g_nodes g_edges g_node_names g_edge_names g_node_counter g_edge_counter].
      - apply wf_put_edge; [exact Wh|apply rename_nodup, Wh| | | |].
        + intros z i H. rewrite rename_lookup in H by apply Wo. destruct (lookup (g_edge_names other) z) as [k|].
          * destruct (k =? oi); [injection H as <-; lia|]. apply (wf_edge_name _ Wh) in H. lia.
          * apply (wf_edge_name _ Wh) in H. lia.
        + apply (wf_edge_ids _ Wo) in Lo as [_ G]. exact G.
        + apply (wf_name _ Wh x). cbn [e_source]. now rewrite M2.
        + apply (wf_name _ Wh y). cbn [e_target]. now rewrite M2.
      - auto.
      - destruct (em_edges _ _ _ _ _ M) as [es [E1 F1]].
        exists (es ++ [(g_edge_counter h, mkEdge s t (e_labels e) (e_content e))]). split.
        + rewrite put_fresh by exact F. now rewrite E1, app_assoc.
        + apply Forall2_app; [exact F1|]. constructor; [exact C|constructor].
      - intros z i e' L I. rewrite rename_lookup, L by apply Wo. apply in_app_or in I as [I|[I|[]]].
        + destruct (Nat.eqb_spec i oi) as [->|D]; [destruct (Fd _ I)|].
          destruct (em_named _ _ _ _ _ M z i e' L I) as [j [e2 [J1 [J2 J3]]]]. exists j, e2. split; [exact J1|]. split; [|exact J3].
          rewrite lookup_put. destruct (Nat.eqb_spec j (g_edge_counter h)) as [->|]; [congruence|exact J2].
        + injection I as <- <-. rewrite Nat.eqb_refl. eexists. eexists. split; [reflexivity|].
          rewrite lookup_put, Nat.eqb_refl. auto.
      - intros z K. rewrite rename_lookup by apply Wo.
        assert (Z : lookup (g_edge_names h) z = lookup (g_edge_names self) z).
        { apply (em_kept _ _ _ _ _ M). intros i e' L I. apply (K i e' L). apply in_or_app. now left. }
        destruct (lookup (g_edge_names other) z) as [k|] eqn:L; [|exact Z].
        destruct (Nat.eqb_spec k oi) as [->|]; [|exact Z].
        destruct (K oi e eq_refl). apply in_or_app. right. now left. }
    assert (E' : g_edges other = (done ++ [(oi, e)]) ++ rest) by now rewrite <- app_assoc.
    cbn [fold_opt]. split.
    + intro A. destruct (A oi e (or_introl eq_refl)) as [A1 A2]. apply KNOWN in A1 as [s Es]. apply KNOWN in A2 as [t Et].
      destruct (STEP s t Es Et) as [h' [Q M']]. rewrite Q. apply (IH _ _ E' M'). intros i e' I. apply (A i e'). now right.
    + intros g H. destruct (merge_edge other ids h (oi, e)) as [h'|] eqn:Q; [|discriminate].
      assert (ST : (exists s, lookup ids (e_source e) = Some s) /\ (exists t, lookup ids (e_target e) = Some t)).
      { cbn [merge_edge] in Q. destruct (lookup ids (e_source e)) as [s|]; [|discriminate].
        destruct (lookup ids (e_target e)) as [t|]; [|discriminate]. split; eauto. }
      destruct ST as [[s Es] [t Et]]. destruct (STEP s t Es Et) as [h'' [Q' M']]. assert (h'' = h') by congruence. subst h''.
      intros i e' [I|I].
      * injection I as <- <-. split; apply KNOWN; eauto.
      * apply (proj2 (IH _ _ E' M') g H i e' I).
Qed.

Lemma edges_merged_start self other h1 ids :
  nodes_merged self other (g_node_names other) h1 ids -> edges_merged self other h1 [] h1.
Proof.
  intro M. destruct (nm_edges _ _ _ _ _ M) as [A [B C]]. split.
  - apply (nm_wf _ _ _ _ _ M).
  - auto.
  - exists []. split; [now rewrite app_nil_r|constructor].
  - intros x i e _ [].
  - intros x _. now rewrite B.
Qed.

Lemma named_fun g x n m : named g x n -> named g x m -> n = m.
Proof. intros [i [A B]] [j [C D]]. congruence. Qed.

Lemma merge_all self other :
  wf self -> wf other ->
  (all_named other -> exists g, pg_merge self other = Some g) /\
  (forall g, pg_merge self other = Some g -> all_named other /\ wf g /\ merged self other g).
Proof.
  intros Ws Wo. unfold pg_merge.
  destruct (nodes_merged_all self other [] (g_node_names other) self [] Ws Wo eq_refl (nodes_merged_start _ _ Ws)) as [h1 [ids [E NM]]].
  rewrite E. destruct (edges_merged_all self other h1 ids [] (g_edges other) h1 Wo NM eq_refl (edges_merged_start _ _ _ _ NM)) as [A B].
  assert (IL : forall i e, In (i, e) (g_edges other) <-> lookup (g_edges other) i = Some e).
  { intros i e. symmetry. apply lookup_nodup, Wo. }
  split.
  - intro An. destruct A as [g [G _]]; [|eauto]. intros i e I. apply (An i e), IL, I.
  - intros g G. pose proof (B g G) as Bn.
    assert (An : all_named other) by (intros i e L; apply (Bn i e), IL, L).
    split; [exact An|]. destruct A as [g' [G' EM]]; [exact Bn|]. rewrite G in G'. injection G' as <-.
    pose proof (em_wf _ _ _ _ _ EM) as Wg. split; [exact Wg|].
    destruct (em_nodes _ _ _ _ _ EM) as [Eq1 Eq2].
    assert (CC : forall e e', carry other h1 e e' -> carried other g e e').
    { intros e e' C. unfold carry in C. unfold carried. now rewrite Eq2. }
    assert (DN : forall x o, In (x, o) (g_node_names other) <-> lookup (g_node_names other) x = Some o).
    { intros x o. symmetry. apply lookup_nodup, Wo. }
    split.
    + intros x i H. rewrite Eq2. now apply (nm_keep _ _ _ _ _ NM).
    + intros x n [i [H _]]. rewrite Eq2 in H. destruct (nm_only _ _ _ _ _ NM x i H) as [K|K].
      * left. destruct (wf_name _ Ws _ _ K) as [m Hm]. exists m, i. auto.
      * right. apply in_map_iff in K as [[y o] [Ey K]]. cbn in Ey; subst y. apply DN in K.
        destruct (wf_name _ Wo _ _ K) as [m Hm]. exists m, o. auto.
    + intros x a b [i [H1 H2]] [o [H3 H4]].
      destruct (nm_both _ _ _ _ _ NM x o b i a (proj2 (DN x o) H3) H4 H1 H2) as [c [Hc J]].
      exists c. split; [|exact J]. exists i. rewrite Eq1, Eq2. split; [now apply (nm_keep _ _ _ _ _ NM)|exact Hc].
    + intros x a [i [H1 H2]] No. exists i. rewrite Eq1, Eq2. split; [now apply (nm_keep _ _ _ _ _ NM)|].
      apply (nm_rest _ _ _ _ _ NM); [exact H2|]. intros y Hy Ly.
      assert (y = x) by (eapply (wf_once _ Ws); eassumption). subst y.
      apply in_map_iff in Hy as [[y o] [Ey K]]. cbn in Ey; subst y. apply DN in K.
      destruct (wf_name _ Wo _ _ K) as [m Hm]. apply (No m). exists o. auto.
    + intros x b [o [H1 H2]] No.
      assert (N : lookup (g_node_names self) x = None).
      { destruct (lookup (g_node_names self) x) as [i|] eqn:Q; [|reflexivity]. destruct (wf_name _ Ws _ _ Q) as [m Hm].
        destruct (No m). exists i. auto. }
      destruct (nm_other _ _ _ _ _ NM x o b (proj2 (DN x o) H1) H2 N) as [i [Hi Hn]].
      exists i. rewrite Eq1, Eq2. auto.
    + intros i n H K. rewrite Eq1. apply (nm_rest _ _ _ _ _ NM); [exact H|]. intros x _. apply K.
    + destruct (em_edges _ _ _ _ _ EM) as [es [E1 F]]. exists es. split; [exact E1|].
      clear - F CC. induction F; constructor; auto.
    + intros x i e H K. destruct (em_named _ _ _ _ _ EM x i e H (proj2 (IL i e) K)) as [j [e' [J1 [J2 J3]]]].
      exists j, e'. auto.
    + intros x K. apply (em_kept _ _ _ _ _ EM). intros i e H I. apply (K i e H), IL, I.
Qed.

(** Merging keeps the ends of edges named. *)
Lemma merged_all_named self other g : wf self -> wf g -> merged self other g -> all_named self -> all_named g.
Proof.
  intros Ws Wg M A i e L. destruct (mg_edges _ _ _ M) as [es [E F]].
  apply lookup_in in L. rewrite E in L. apply in_app_or in L as [L|L].
  - assert (L' : lookup (g_edges self) i = Some e) by (apply lookup_nodup; [apply Ws|exact L]).
    destruct (A i e L') as [[x X] [y Y]]. split; [exists x|exists y]; now apply (mg_keep _ _ _ M).
  - assert (K : exists e0, carried other g e0 e).
    { clear - F L. revert F. generalize (g_edges other). intros l F. induction F as [|a b l es C F IH]; [destruct L|].
      destruct L as [->|L]; [eauto|auto]. }
    destruct K as [e0 [_ [_ [[x [_ X]] [y [_ Y]]]]]]. split; eauto.
Qed.
