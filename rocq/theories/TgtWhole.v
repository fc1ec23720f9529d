(** From shapes as written to the report (C71). *)
From Coq Require Import List Bool NArith ZArith Relations Lia Arith.
Import ListNotations.
From Verif Require Import GraphModel GraphSpec GraphLemmas LevelModel LevelSpec LevelLemmas LevelProps.
From Verif Require Import PathModel PathSpec PathLemmas ProgModel ProgLemmas ShaclModel ShaclSpec ShaclLemmas ShaclConf ShaclProps.
From Verif Require Import ShcModel ShcSpec ShcLemmas ShcMeaning ShcProps TgtModel TgtSpec TgtLemmas.

(** ** executions *)
Lemma pool_exists {K V A} eqb (ps : list (prog K V A)) : forall c, exists c' rs, pool_run eqb c ps c' rs.
Proof.
  induction ps as [|p ps IH]; intros c; [exists c, []; apply (run_done eqb c [])|].
  destruct (IH (snd (run eqb c p))) as (c' & rs & R). exists c', (fst (run eqb c p) :: rs). eapply pool_run_app; [apply run_pool|exact R].
Qed.
Lemma process_exists W sch targets fuel levels : forall c, exists r, process W sch targets fuel c levels r.
Proof.
  induction levels as [|level levels IH]; intros c; [exists (Ok []); apply process_done|].
  destruct (pool_exists ckey_eqb (map (thread W sch targets fuel) level) c) as (c' & rs & R). destruct (IH c') as (b & B).
  destruct (extend_results rs) as [a| | |] eqn:E.
  - eexists. eapply process_level; eassumption.
  - exists Err. eapply process_fails; [exact R|exact E|discriminate].
  - exists Panic. eapply process_fails; [exact R|exact E|discriminate].
  - exists OutOfFuel. eapply process_fails; [exact R|exact E|discriminate].
Qed.

(** ** satisfaction depends on the shapes that are referred to *)
Lemma asatisfies_ext W V A (C C' : term -> term -> Prop) a c t : (forall j v, In j (acomp_refs c) -> (C j v <-> C' j v)) -> asatisfies W V A C a c t -> asatisfies W V A C' a c t.
Proof.
  intros H. destruct c as [c|r|k|k|z|z|b|r|r|b r|l|l|l|u|u|b ig|w|vs|u qmin qmax dj sib|b]; cbn [asatisfies acomp_refs] in *; auto.
  - intros K v N. destruct (K v N) as (j & J & X). exists j. split; [exact J|]. apply (H j v J), X.
  - intros K v N j J. apply (H j v J), K; assumption.
  - intros K v N. destruct (K v N) as (l1 & j & l2 & -> & X & Y). exists l1, j, l2. split; [reflexivity|]. split; [apply (H j v); [apply in_elt|exact X]|].
    intros k Hk Z. apply (Y k Hk). apply (H k v); [apply in_app_or in Hk; apply in_or_app; cbn; tauto|exact Z].
  - intros K v N X. apply (K v N). apply (H u v); [left; reflexivity|exact X].
  - intros K v N. apply (H u v); [left; reflexivity|]. apply K, N.
  - assert (E : forall v, (avalue_node (w_graph W) a t v /\ C u v /\ (dj = Some true -> forall j, In j sib -> ~ C j v)) <-> (avalue_node (w_graph W) a t v /\ C' u v /\ (dj = Some true -> forall j, In j sib -> ~ C' j v))).
    { intros v. rewrite (H u v (or_introl eq_refl)). split; intros (X & Y & Z); (split; [exact X|]); (split; [exact Y|]); intros DJ j J Q; apply (Z DJ j J); apply (H j v (or_intror J)), Q. }
    intros [K1 K2]. split; intros m M; [apply (at_least_same m _ _ E), K1, M|apply (at_most_same m _ _ E), K2, M].
Qed.

Section Whole.
  Variable W : world.
  Variable V : vocabulary.
  Variable regex : N -> bool.
  Variable back : N -> N.
  Variable A : ast.
  Variable st : state.
  Variable rank : term -> nat.
  Hypothesis D : distinct A.
  Hypothesis CS : compiled regex A st.
  Hypothesis RK : ranked A rank.
  Hypothesis T : tidy A.
  Hypothesis R : within_reach W V A.
  Hypothesis FC : flat_classes (v_sub V) (w_graph W).
  Hypothesis FT : tests_fit W V.
  Notation L := (s_labels st).
  Notation sch := (ir_schema st).

  Lemma comp_refs_back c d j : comp_match regex L c d -> In j (comp_refs d) -> exists u, In u (acomp_refs c) /\ label_of L u = Some j.
  Proof.
    intros H J. destruct c as [c|r|k|k|z|z|b|r|r|b r|l|l|l|u|u|b ig|w|vs|u qmin qmax dj sib|b]; cbn [comp_match] in H;
      try (subst d; destruct J; fail); try (destruct H as (? & _ & ->); destruct J; fail); try (destruct H as (_ & ->); destruct J; fail).
    - destruct H as (is & H & ->). cbn in J. destruct (Forall2_in_r _ _ _ j H J) as (u & U & E). exists u. auto.
    - destruct H as (is & H & ->). cbn in J. destruct (Forall2_in_r _ _ _ j H J) as (u & U & E). exists u. auto.
    - destruct H as (is & H & ->). cbn in J. destruct (Forall2_in_r _ _ _ j H J) as (u & U & E). exists u. auto.
    - destruct H as (i & H & ->). cbn in J. destruct J as [<-|[]]. exists u. split; [left; reflexivity|exact H].
    - destruct H as (i & H & ->). cbn in J. destruct J as [<-|[]]. exists u. split; [left; reflexivity|exact H].
    - destruct H as (i & is & H & K & ->). cbn in J. destruct J as [<-|J]; [exists u; split; [left; reflexivity|exact H]|]. destruct (Forall2_in_r _ _ _ j K J) as (x & X & E). exists x. split; [right; exact X|exact E].
  Qed.
  Lemma refs_back id a s ts j : shape_match regex A L id a s ts -> In j (refs s) -> exists u, In u (arefs a) /\ label_of L u = Some j.
  Proof.
    intros M J. unfold refs in J. apply in_app_or in J. destruct J as [J|J].
    - apply in_flat_map in J. destruct J as (d & D1 & D2). destruct (Forall2_in_r _ _ _ d (m_comps _ _ _ _ _ _ _ M) D1) as (c & C1 & C2). destruct (comp_refs_back c d j C2 D2) as (u & U1 & U2).
      exists u. split; [|exact U2]. unfold arefs. apply in_or_app. left. apply in_flat_map. exists c. auto.
    - apply in_app_or in J. destruct J as [J|J].
      + destruct (Forall2_in_r _ _ _ j (m_props _ _ _ _ _ _ _ M) J) as (u & U & E). exists u. split; [|exact E]. unfold arefs. apply in_or_app. right. apply in_or_app. left. exact U.
      + pose proof (m_reifier _ _ _ _ _ _ _ M) as X. unfold reifier_match in X. destruct (a_path a) as [p|] eqn:P; [|rewrite X in J; destruct J]. destruct (a_reifier a) as [[rq us]|] eqn:Q; [|rewrite X in J; destruct J].
        destruct X as (n & is & _ & X & EQ). rewrite EQ in J. cbn in J. destruct (Forall2_in_r _ _ _ j X J) as (u & U & E). exists u. split; [|exact E]. unfold arefs. apply in_or_app. right. apply in_or_app. right. unfold reifier_refs. rewrite P, Q. exact U.
  Qed.
  Lemma label_unique x y i : label_of L x = Some i -> label_of L y = Some i -> x = y.
  Proof. apply label_inj, (i_nums A st (c_inv _ _ st CS)). Qed.

  Definition rank_of (i : nat) : nat := match List.find (fun e : term * nat => Nat.eqb (snd e) i) L with Some e => rank (fst e) | None => 0 end.
  Lemma rank_of_label x i : label_of L x = Some i -> rank_of i = rank x.
  Proof.
    intros H. unfold rank_of. destruct (List.find (fun e => Nat.eqb (snd e) i) L) as [[y j]|] eqn:E.
    - apply find_some in E. destruct E as [E K]. cbn in K. apply Nat.eqb_eq in K. subst j. cbn. f_equal. apply (label_unique y x i); [|exact H]. apply label_of_in; [apply (i_names A st (c_inv _ _ st CS))|exact E].
    - apply label_of_some in H. apply (find_none _ _ E) in H. cbn in H. rewrite Nat.eqb_refl in H. discriminate.
  Qed.
  Lemma compiled_layered : layered sch rank_of.
  Proof.
    intros i s GS j J. destruct (source_of regex A st CS i s GS) as (id & a & I & E & M). destruct (refs_back id a s _ j M J) as (u & U & EU). split.
    - destruct (label_known regex A st CS u j EU) as (b & B). destruct (shape_of regex A st D CS u b B) as (j' & s' & EJ & G' & _). exists s'. congruence.
    - rewrite (rank_of_label id i E), (rank_of_label u j EU). apply (RK id a u I U).
  Qed.

  Definition start_of (i : nat) (t : term) : Prop := exists id a tg, label_of L id = Some i /\ In (id, a) A /\ In tg (a_targets a) /\ is_target V (w_graph W) tg t.
  Lemma asked_needed i t : asked (w_graph W) sch start_of i t -> exists id, label_of L id = Some i /\ needed V (w_graph W) A id t.
  Proof.
    intros H. induction H as [i t (id & a & tg & E & I & TG & H)|i t s j v H (id & E & N) GS J VN].
    - exists id. split; [exact E|]. apply (needed_target V (w_graph W) A id a tg t I TG H).
    - destruct (source_of regex A st CS i s GS) as (id' & a & I & E' & M). assert (id' = id) as -> by (apply (label_unique id' id i E' E)).
      destruct (refs_back id a s _ j M J) as (u & U & EU). exists u. split; [exact EU|]. apply (needed_ref V (w_graph W) A id a t u v N I U). apply (value_iff W regex A st id a s M t v), VN.
  Qed.
  Lemma asked_source i s t : asked (w_graph W) sch start_of i t -> get_shape sch i = Some s ->
    exists id a, In (id, a) A /\ shape_match regex A L id a s (a_targets a) /\ needed V (w_graph W) A id t.
  Proof.
    intros H GS. destruct (asked_needed i t H) as (id & E & N). destruct (source_of regex A st CS i s GS) as (id' & a & I & E' & M). assert (id' = id) as -> by (apply (label_unique id' id i E' E)). exists id, a. auto.
  Qed.
  Lemma comp_back c d : comp_match regex L c d ->
    (forall b p, d = CLess b p -> compares c) /\ (forall p, d = CDisjoint p -> c = ADisjoint (IriFull p)) /\ (forall p, d = CEquals p -> compares c) /\ (d = CClosed true -> exists ig, c = AClosed true ig).
  Proof.
    intros H. refine (conj _ (conj _ (conj _ _))).
    - intros b p ->. destruct c; cbn [comp_match] in H; try discriminate; try exact Logic.I; exfalso; try (destruct H as (? & _ & H); discriminate); try (destruct H as (_ & H); discriminate). destruct H as (? & ? & _ & _ & H). discriminate.
    - intros p ->. destruct c; cbn [comp_match] in H; try discriminate; try (destruct H as (? & -> & H); congruence); try (exfalso; destruct H as (? & _ & H); discriminate); try (exfalso; destruct H as (_ & H); discriminate). destruct H as (? & ? & _ & _ & H). discriminate.
    - intros p ->. destruct c; cbn [comp_match] in H; try discriminate; try exact Logic.I; exfalso; try (destruct H as (? & _ & H); discriminate); try (destruct H as (_ & H); discriminate). destruct H as (? & ? & _ & _ & H). discriminate.
    - intros ->. destruct c; cbn [comp_match] in H; try discriminate; try (exfalso; destruct H as (? & _ & H); discriminate); try (exfalso; destruct H as (_ & H); discriminate); [|exfalso; destruct H as (? & ? & _ & _ & H); discriminate]. injection H as <-. eexists. reflexivity.
  Qed.
  Lemma compiled_fine : fine W sch rank_of start_of.
  Proof.
    split.
    - apply (r_order _ _ _ R).
    - apply compiled_layered.
    - apply (r_keys _ _ _ R).
    - intros i t t' H H' E. destruct (asked_needed i t H) as (id & L1 & N1). destruct (asked_needed i t' H') as (id' & L2 & N2). assert (id' = id) as -> by (apply (label_unique id' id i L2 L1)). apply (r_inj _ _ _ R id t t' N1 N2 E).
    - intros i t (id & a & tg & E & I & _). destruct (shape_of regex A st D CS id a I) as (i' & s & E' & GS & _). exists s. congruence.
    - intros i s p GS P. destruct (source_of regex A st CS i s GS) as (id & a & I & E & M). rewrite (m_path _ _ _ _ _ _ _ M) in P. destruct (r_path _ _ _ R id a p I P) as (X1 & X2 & _). split; [exact X1|].
      pose proof (m_props _ _ _ _ _ _ _ M) as X. rewrite X2 in X. inversion X. reflexivity.
    - intros i s GS. destruct (source_of regex A st CS i s GS) as (id & a & I & E & M). pose proof (m_reifier _ _ _ _ _ _ _ M) as X. unfold reifier_match in X. destruct (a_path a) as [p|] eqn:P; [|exact X].
      destruct (r_path _ _ _ R id a p I P) as (_ & _ & X3 & _). rewrite X3 in X. exact X.
    - intros i s t H GS K. destruct (asked_source i s t H GS) as (id & a & I & M & N). destruct K as [(b & p & K)|(p & K)];
        destruct (Forall2_in_r _ _ _ _ (m_comps _ _ _ _ _ _ _ M) K) as (c & C1 & C2); apply (r_subject _ _ _ R id a c t N I C1).
      + apply (proj1 (comp_back c _ C2) b p eq_refl).
      + rewrite (proj1 (proj2 (comp_back c _ C2)) p eq_refl). exact Logic.I.
  Qed.
  Lemma compiled_plain : plain W sch start_of.
  Proof.
    split.
    - apply (r_graph _ _ _ R).
    - intros i s p t x H GS P LV. destruct (asked_source i s t H GS) as (id & a & I & M & N). rewrite (m_path _ _ _ _ _ _ _ M) in P. apply (r_leaves _ _ _ R id a p t x N I P LV).
    - intros i s p t H GS K. destruct (asked_source i s t H GS) as (id & a & I & M & N). destruct (Forall2_in_r _ _ _ _ (m_comps _ _ _ _ _ _ _ M) K) as (c & C1 & C2).
      apply (r_subject _ _ _ R id a c t N I C1). apply (proj1 (proj2 (proj2 (comp_back c _ C2))) p eq_refl).
    - intros i s p t v w H GS K VN TR E. destruct (asked_source i s t H GS) as (id & a & I & M & N). destruct (Forall2_in_r _ _ _ _ (m_comps _ _ _ _ _ _ _ M) K) as (c & C1 & C2).
      pose proof (proj1 (proj2 (comp_back c _ C2)) p eq_refl) as ->. apply (r_disjoint _ _ _ R id a p t v w N I C1); [apply (value_iff W regex A st id a s M t v), VN|exact TR|exact E].
    - intros i s GS K. destruct (source_of regex A st CS i s GS) as (id & a & I & E & M). destruct (Forall2_in_r _ _ _ _ (m_comps _ _ _ _ _ _ _ M) K) as (c & C1 & C2).
      destruct (proj2 (proj2 (proj2 (comp_back c _ C2))) eq_refl) as (ig & ->). rewrite (m_path _ _ _ _ _ _ _ M). destruct (a_path a) as [p|] eqn:P; [|reflexivity]. destruct (r_path _ _ _ R id a p I P) as (_ & _ & _ & X). destruct (X ig C1).
  Qed.

  (** conformance by name and by number *)
  Definition by_number (C : term -> term -> Prop) (i : nat) (t : term) : Prop := exists id, label_of L id = Some i /\ C id t.
  Lemma by_number_name C id t : (exists i, label_of L id = Some i) -> by_name st (by_number C) id t <-> C id t.
  Proof.
    intros (i & E). unfold by_name, by_number. split.
    - intros (j & E1 & id' & E2 & H). assert (id' = id) as -> by (apply (label_unique id' id j E2 E1)). exact H.
    - intros H. exists i. split; [exact E|]. exists id. auto.
  Qed.
  Lemma known_refs id a u : In (id, a) A -> In u (arefs a) -> exists i, label_of L u = Some i.
  Proof.
    intros I U. destruct (compiled_good regex A st D CS id a I) as (K & _). destruct (K u U) as (b & B). apply (c_all _ _ st CS u b B).
  Qed.
  Lemma aconformance_ext C C' : (forall id t, (exists i, label_of L id = Some i) -> C id t <-> C' id t) -> aconformance W V A C -> aconformance W V A C'.
  Proof.
    intros E H id a t I. rewrite <- (E id t (c_all _ _ st CS id a I)), (H id a t I).
    assert (X : forall c, In c (a_comps a) -> forall j v, In j (acomp_refs c) -> C j v <-> C' j v).
    { intros c IC j v J. apply E, (known_refs id a j I). unfold arefs. apply in_or_app. left. apply in_flat_map. exists c. auto. }
    assert (Y : forall j v, In j (a_props a) -> C j v <-> C' j v).
    { intros j v J. apply E, (known_refs id a j I). unfold arefs. apply in_or_app. right. apply in_or_app. left. exact J. }
    split; (intros [K|[K1 K2]]; [left; exact K|right]); split.
    - intros c IC. apply (asatisfies_ext W V A C C' a c t (X c IC)), K1, IC.
    - intros j v J N. apply (Y j v J), (K2 j v J N).
    - intros c IC. apply (asatisfies_ext W V A C' C a c t); [intros j v J; symmetry; apply (X c IC j v J)|apply K1, IC].
    - intros j v J N. apply (Y j v J), (K2 j v J N).
  Qed.
  Lemma conformance_by_number C : aconformance W V A C -> conformance W sch (by_number C).
  Proof.
    intros H. apply (meaning_kept W V regex A st D CS T (r_graph _ _ _ R) FC FT). apply (aconformance_ext C); [|exact H]. intros id t K. symmetry. apply by_number_name, K.
  Qed.
  Lemma aconformance_exists : exists C, aconformance W V A C.
  Proof.
    exists (by_name st (fun i t => Cf W sch (S (rank_of i)) i t)). apply (meaning_kept W V regex A st D CS T (r_graph _ _ _ R) FC FT). apply conformance_exists, compiled_layered.
  Qed.
  Lemma aconformance_unique C C' : aconformance W V A C -> aconformance W V A C' -> forall id a t, In (id, a) A -> C id t <-> C' id t.
  Proof.
    intros H H' id a t I. destruct (shape_of regex A st D CS id a I) as (i & s & E & GS & _).
    pose proof (conformance_unique W sch rank_of _ _ compiled_layered (conformance_by_number C H) (conformance_by_number C' H') (S (rank_of i)) i s t ltac:(lia) GS) as X.
    unfold by_number in X. split; intros K.
    - destruct (proj1 X (ex_intro _ id (conj E K))) as (id' & E' & K'). assert (id' = id) as -> by (apply (label_unique id' id i E' E)). exact K'.
    - destruct (proj2 X (ex_intro _ id (conj E K))) as (id' & E' & K'). assert (id' = id) as -> by (apply (label_unique id' id i E' E)). exact K'.
  Qed.

  (** ** focus nodes *)
  Hypothesis TS : v_type V <> v_sub V.
  Hypothesis PT : forall id a tg, In (id, a) A -> In tg (a_targets a) -> proper_target back tg /\ shallow_target V (w_graph W) tg.
  Lemma ir_targets_ok i s : get_shape sch i = Some s -> exists id a, In (id, a) A /\ label_of L id = Some i /\ shape_match regex A L id a s (a_targets a) /\ ir_targets st i = a_targets a.
  Proof.
    intros GS. destruct (source_of regex A st CS i s GS) as (id & a & I & E & M). exists id, a. refine (conj I (conj E (conj M _))).
    apply (get_shape_in regex A st CS) in GS. destruct GS as (ts & GS). unfold ir_targets. destruct (List.find (fun e => Nat.eqb (fst e) i) (s_shapes st)) as [[j [s' ts']]|] eqn:FD.
    - apply find_some in FD. destruct FD as [FD EQ]. cbn in EQ. apply Nat.eqb_eq in EQ. subst j. cbn [snd]. destruct (c_done _ _ st CS _ FD) as (id' & b & FS & LB & MB). cbn [fst snd] in *.
      assert (id' = id) as -> by (apply (label_unique id' id i LB E)). rewrite (find_shape_in A id a D I) in FS. injection FS as <-. apply (m_targets _ _ _ _ _ _ _ MB).
    - apply (find_none _ _ FD) in GS. cbn in GS. rewrite Nat.eqb_refl in GS. discriminate.
  Qed.
  Lemma shape_targets_ok i s : get_shape sch i = Some s -> exists l, shape_targets W back (v_type V) (v_sub V) st i = Ok l /\ NoDup l /\
    forall t, In t l <-> s_deactivated s = false /\ start_of i t.
  Proof.
    intros GS. destruct (ir_targets_ok i s GS) as (id & a & I & E & M & TG). unfold shape_targets. rewrite GS. destruct (s_deactivated s) eqn:DA.
    - exists []. split; [reflexivity|]. split; [constructor|]. intros t. split; [intros []|intros [X _]; discriminate].
    - rewrite TG. destruct (focus_from (native (w_graph W) (v_type V) (v_sub V) back (Some (build_index (w_graph W) (v_type V) (v_sub V) (w_key W)))) (is_target V (w_graph W)) (a_targets a)) as (l & EL & N & HL).
      + intros tg HT. destruct (PT id a tg I HT) as [P1 P2]. destruct (native_found V (w_graph W) (w_key W) back (r_graph _ _ _ R) TS true tg P1) as (l & EL & _ & HL). exists l. split; [exact EL|].
        intros t. rewrite HL. split; [apply found_sound|apply found_complete, P2].
      + exists l. split; [exact EL|]. split; [exact N|]. intros t. rewrite HL. split.
        * intros (tg & H1 & H2). split; [reflexivity|]. exists id, a, tg. auto.
        * intros [_ (id' & b & tg & E' & I' & H1 & H2)]. assert (id' = id) as -> by (apply (label_unique id' id i E' E)). assert (b = a) as -> by (pose proof (find_shape_in A id a D I) as X1; pose proof (find_shape_in A id b D I') as X2; congruence). exists tg. auto.
  Qed.
  Lemma with_targets_iff i : with_targets (level_schema st) i <-> exists id a, In (id, a) A /\ label_of L id = Some i /\ a_targets a <> [].
  Proof.
    split.
    - intros (ls & H & K). apply level_in in H. destruct H as (s & ts & H & ->). destruct (match_in regex A st CS i s ts H) as (id & a & I & E & M). exists id, a. split; [exact I|]. split; [exact E|].
      cbn in K. rewrite (m_targets _ _ _ _ _ _ _ M) in K. intros X. rewrite X in K. discriminate.
    - intros (id & a & I & E & N). destruct (shape_of regex A st D CS id a I) as (i' & s & E' & GS & M). assert (i' = i) as -> by congruence. apply (get_shape_in regex A st CS) in GS. destruct GS as (ts & GS).
      exists (level_shape (s, ts)). split; [apply level_in; exists s, ts; auto|]. cbn. destruct (match_in regex A st CS i s ts GS) as (id' & b & I' & E2 & M'). assert (id' = id) as -> by (apply (label_unique id' id i E2 E)).
      assert (b = a) as -> by (pose proof (find_shape_in A id a D I) as X1; pose proof (find_shape_in A id b D I') as X2; congruence). rewrite (m_targets _ _ _ _ _ _ _ M'). destruct (a_targets a); [congruence|reflexivity].
  Qed.

  Section Report.
    Variable fuel : nat.
    Variable levels : list (list nat).
    Hypothesis DE : forall id a, In (id, a) A -> rank id < fuel.
    Hypothesis LV : forall i, In i (concat levels) <-> with_targets (level_schema st) i.
    Lemma level_in_concat level i : In level levels -> In i level -> In i (concat levels).
    Proof. intros H K. apply in_concat. exists level. auto. Qed.
    Lemma in_schedule level i : In level levels -> In i level -> exists s, get_shape sch i = Some s.
    Proof.
      intros H K. pose proof (proj1 (LV i) (level_in_concat level i H K)) as X. apply with_targets_iff in X. destruct X as (id & a & I & E & _). destruct (shape_of regex A st D CS id a I) as (i' & s & E' & GS & _). exists s. congruence.
    Qed.
    Lemma report_ok C r : aconformance W V A C ->
      process W sch (targets_or_none W back (v_type V) (v_sub V) st) fuel empty_cache levels r ->
      exists l, r = Ok l /\ (l = [] <-> forall id a tg t, In (id, a) A -> In tg (a_targets a) -> is_target V (w_graph W) tg t -> C id t).
    Proof.
      intros HC P.
      assert (X : forall i s, get_shape sch i = Some s -> NoDup (targets_or_none W back (v_type V) (v_sub V) st i) /\ forall t, In t (targets_or_none W back (v_type V) (v_sub V) st i) <-> s_deactivated s = false /\ start_of i t).
      { intros i s GS. unfold targets_or_none. destruct (shape_targets_ok i s GS) as (l & -> & N & HL). auto. }
      destruct (C54_report_partial W sch rank_of start_of compiled_fine (targets_or_none W back (v_type V) (v_sub V) st) compiled_plain (by_number C) (conformance_by_number C HC) fuel levels r P) as (l & EL & HL).
      - intros level i H K. destruct (in_schedule level i H K) as (s & GS). destruct (X i s GS) as [X1 X2]. split; [exact X1|]. split; [exists s; exact GS|]. intros t Ht. apply X2, Ht.
      - intros level i H K. destruct (in_schedule level i H K) as (s & GS). destruct (source_of regex A st CS i s GS) as (id & a & I & E & _). rewrite (rank_of_label id i E). apply (DE id a I).
      - exists l. split; [exact EL|]. rewrite HL. split.
        + intros H id a tg t I HT HI. destruct (shape_of regex A st D CS id a I) as (i & s & E & GS & M). destruct (s_deactivated s) eqn:DA.
          * apply (HC id a t I). left. apply (deactivated_iff regex A st id a s M), DA.
          * assert (WT : In i (concat levels)) by (apply LV, with_targets_iff; exists id, a; split; [exact I|]; split; [exact E|]; intros Z; rewrite Z in HT; destruct HT).
            apply in_concat in WT. destruct WT as (level & L1 & L2). destruct (X i s GS) as [_ X2].
            assert (Y : by_number C i t) by (apply (H level i t L1 L2); apply X2; split; [exact DA|]; exists id, a, tg; auto).
            destruct Y as (id' & E' & Y). assert (id' = id) as -> by (apply (label_unique id' id i E' E)). exact Y.
        + intros H level i t L1 L2 Ht. destruct (in_schedule level i L1 L2) as (s & GS). destruct (X i s GS) as [_ X2]. apply X2 in Ht. destruct Ht as [_ (id & a & tg & E & I & HT & HI)]. exists id. split; [exact E|]. apply (H id a tg t I HT HI).
    Qed.
  End Report.
End Whole.
