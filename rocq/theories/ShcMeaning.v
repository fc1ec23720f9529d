(** Compiling SHACL shapes keeps their meaning (C69). *)
From Coq Require Import List Bool NArith ZArith Relations Lia Arith.
Import ListNotations.
From Verif Require Import GraphModel GraphSpec GraphLemmas LevelModel LevelSpec LevelLemmas LevelProps.
From Verif Require Import PathModel PathSpec PathLemmas ShaclModel ShaclSpec ShaclConf ShcModel ShcSpec ShcLemmas.

Lemma at_least_same m (P Q : term -> Prop) : (forall v, P v <-> Q v) -> at_least m P <-> at_least m Q.
Proof. intros E. unfold at_least. split; intros (l & N & H & K); exists l; (split; [exact N|]); (split; [|exact K]); intros v V; apply E, H, V. Qed.
Lemma at_most_same m (P Q : term -> Prop) : (forall v, P v <-> Q v) -> at_most m P <-> at_most m Q.
Proof. intros E. unfold at_most. split; intros H l N K; apply (H l N); intros v V; apply E, K, V. Qed.
Lemma imp_iff (P Q R : Prop) : (P -> (Q <-> R)) -> (P -> Q) <-> (P -> R).
Proof. tauto. Qed.
Lemma all_iff (P Q R : term -> Prop) : (forall v, Q v <-> R v) -> (forall v, P v -> Q v) <-> (forall v, P v -> R v).
Proof. intros E. split; intros H v V; apply E, H, V. Qed.

(** ** sh:class *)
Lemma objects_or_none_in g t p o : rdf_graph g -> In o (objects_or_none g t p) <-> In (t, p, o) g.
Proof.
  intros G. unfold objects_or_none, objects_for. destruct (term_as_subject t) as [s|] eqn:E.
  - assert (s = t) as -> by (destruct t; cbn in E; congruence). rewrite tset_in, in_map_iff. split.
    + intros ([[a b] c] & <- & H). apply filter_In in H. destruct H as [H K]. cbn in *. apply andb_true_iff in K. destruct K as [K1 K2]. destruct (term_eqb_spec a t) as [->|]; [|discriminate]. apply N.eqb_eq in K2. subst b. exact H.
    + intros H. exists (t, p, o). split; [reflexivity|]. apply filter_In. split; [exact H|]. cbn. destruct (term_eqb_spec t t); [|congruence]. rewrite N.eqb_refl. reflexivity.
  - split; [intros []|]. intros H. specialize (G _ _ _ H). destruct t; cbn in E; [discriminate|discriminate|destruct G].
Qed.
Lemma tmem_in x l : tmem x l = true <-> In x l.
Proof. apply tmem_spec. Qed.
Lemma class_step V g c v : rdf_graph g ->
  class_fn g (v_type V) (v_sub V) c v = false <-> exists k, In (v, v_type V, k) g /\ (k = c \/ In (k, v_sub V, c) g).
Proof.
  intros G.
  assert (X : negb (existsb (fun k => term_eqb k c || tmem c (objects_or_none g k (v_sub V))) (objects_or_none g v (v_type V))) = false <-> exists k, In (v, v_type V, k) g /\ (k = c \/ In (k, v_sub V, c) g)).
  { rewrite negb_false_iff, existsb_exists. split; intros (k & H & K); exists k.
    - rewrite (objects_or_none_in g v _ k G) in H. split; [exact H|]. apply orb_true_iff in K. destruct K as [K|K]; [left; destruct (term_eqb_spec k c); [assumption|discriminate]|right]. apply tmem_in in K. apply (proj1 (objects_or_none_in g k _ c G)), K.
    - rewrite (objects_or_none_in g v _ k G). split; [exact H|]. apply orb_true_iff. destruct K as [->|K]; [left; destruct (term_eqb_spec c c); congruence|right]. apply tmem_in. apply (proj2 (objects_or_none_in g k _ c G)), K. }
  destruct v; exact X.
Qed.
Lemma flat_subclass sub g a b : flat_classes sub g -> subclass sub g a b <-> a = b \/ In (a, sub, b) g.
Proof.
  intros F. split.
  - intros H. induction H as [x y H|x|x y z H IH K JH]; [right; exact H|left; reflexivity|].
    destruct IH as [->|IH]; [exact JH|]. destruct JH as [<-|JH]; [right; exact IH|]. right. apply (F x y z IH JH).
  - intros [->|H]; [apply rt_refl|apply rt_step, H].
Qed.
Lemma class_exact V g c v : rdf_graph g -> flat_classes (v_sub V) g -> class_fn g (v_type V) (v_sub V) c v = false <-> instance (v_type V) (v_sub V) g v c.
Proof.
  intros G F. rewrite (class_step V g c v G). unfold instance. split; intros (k & H & K); exists k; (split; [exact H|]); apply (flat_subclass _ _ _ _ F), K.
Qed.

(** ** one component *)
Section Meaning.
  Variable W : world.
  Variable V : vocabulary.
  Variable regex : N -> bool.
  Variable A : ast.
  Variable st : state.
  Hypothesis D : distinct A.
  Hypothesis CS : compiled regex A st.
  Hypothesis T : tidy A.
  Hypothesis G : rdf_graph (w_graph W).
  Hypothesis F : flat_classes (v_sub V) (w_graph W).
  Hypothesis FT : tests_fit W V.
  Variable C : nat -> term -> Prop.
  Notation L := (s_labels st).
  Definition by_name (id t : term) : Prop := exists i, label_of L id = Some i /\ C i t.

  Lemma by_name_iff id i t : labelled L id i -> by_name id t <-> C i t.
  Proof. intros H. unfold by_name. split; [intros (j & E & K); unfold labelled in H; congruence|intros K; exists i; auto]. Qed.
  Lemma all_names l is v : Forall2 (labelled L) l is -> (forall j, In j is -> C j v) <-> (forall t, In t l -> by_name t v).
  Proof.
    intros H. split; intros K x X.
    - destruct (Forall2_in_l _ _ _ x H X) as (i & I & E). apply (by_name_iff x i v E), K, I.
    - destruct (Forall2_in_r _ _ _ x H X) as (t & I & E). apply (by_name_iff t x v E), K, I.
  Qed.
  Lemma none_names l is v : Forall2 (labelled L) l is -> (forall j, In j is -> ~ C j v) <-> (forall t, In t l -> ~ by_name t v).
  Proof.
    intros H. split; intros K x X.
    - destruct (Forall2_in_l _ _ _ x H X) as (i & I & E). rewrite (by_name_iff x i v E). apply K, I.
    - destruct (Forall2_in_r _ _ _ x H X) as (t & I & E). rewrite <- (by_name_iff t x v E). apply K, I.
  Qed.
  Lemma some_name l is v : Forall2 (labelled L) l is -> (exists j, In j is /\ C j v) <-> (exists t, In t l /\ by_name t v).
  Proof.
    intros H. split; intros (x & X & K).
    - destruct (Forall2_in_r _ _ _ x H X) as (t & I & E). exists t. split; [exact I|]. apply (by_name_iff t x v E), K.
    - destruct (Forall2_in_l _ _ _ x H X) as (i & I & E). exists i. split; [exact I|]. apply (by_name_iff x i v E), K.
  Qed.
  Lemma one_name l is v : Forall2 (labelled L) l is ->
    (exists l1 j l2, is = l1 ++ j :: l2 /\ C j v /\ forall k, In k (l1 ++ l2) -> ~ C k v) <->
    (exists l1 j l2, l = l1 ++ j :: l2 /\ by_name j v /\ forall k, In k (l1 ++ l2) -> ~ by_name k v).
  Proof.
    intros H. split; intros (l1 & j & l2 & -> & K & N).
    - apply Forall2_app_inv_r in H. destruct H as (k1 & k2 & H1 & H2 & ->). inversion H2 as [|t i ts is E H3]; subst. exists k1, t, ts. split; [reflexivity|]. split; [apply (by_name_iff t j v E), K|].
      apply (none_names (k1 ++ ts) (l1 ++ l2) v (Forall2_app H1 H3)), N.
    - apply Forall2_app_inv_l in H. destruct H as (k1 & k2 & H1 & H2 & ->). inversion H2 as [|t i ts is E H3]; subst. exists k1, i, is. split; [reflexivity|]. split; [apply (by_name_iff j i v E), K|].
      apply (none_names (l1 ++ l2) (k1 ++ is) v (Forall2_app H1 H3)), N.
  Qed.
  Lemma test_iff x v : w_test W (code x) v = false <-> passes V (w_graph W) x v.
  Proof.
    pose proof (FT (code x) v) as H. rewrite decode_code in H. destruct x; cbn [passes]; try exact H. rewrite H. apply class_exact; assumption.
  Qed.
  Lemma convert_value_iff w t : convert_value w = Ok t <-> term_of w t.
  Proof.
    destruct w as [[n|n]|n]; cbn; split; intros H; try discriminate; try contradiction; congruence.
  Qed.
  Lemma convert_values_in vs ts : convert_values vs = Ok ts -> forall t, In t ts <-> exists w, In w vs /\ term_of w t.
  Proof.
    revert ts. induction vs as [|w vs IH]; intros ts H t; cbn [convert_values] in H.
    - injection H as <-. split; [intros []|intros (w & [] & _)].
    - destruct (convert_value w) as [u| | |] eqn:E; try discriminate. cbn [bind] in H. destruct (convert_values vs) as [us| | |]; try discriminate. cbn [bind] in H. injection H as <-. cbn [In]. rewrite (IH us eq_refl). split.
      + intros [<-|(x & X & K)]; [exists w; split; [left; reflexivity|apply convert_value_iff, E]|exists x; split; [right; exact X|exact K]].
      + intros (x & [<-|X] & K); [left; apply convert_value_iff in K; congruence|right; exists x; auto].
  Qed.

  Section Shape.
    Variable id : term.
    Variable a : ashape.
    Variable s : shape.
    Hypothesis I : In (id, a) A.
    Hypothesis M : shape_match regex A L id a s (a_targets a).
    Variable t : term.

    Lemma value_iff v : value_node (w_graph W) s t v <-> avalue_node (w_graph W) a t v.
    Proof. unfold value_node, avalue_node. rewrite (m_path _ _ _ _ _ _ _ M). reflexivity. Qed.
    Lemma allowed_iff ig : In (AClosed true ig) (a_comps a) -> forall p, In p (s_allowed s) <-> In p ig \/ described A a p.
    Proof.
      intros K p. pose proof (m_allowed _ _ _ _ _ _ _ M) as E. unfold allowed_properties in E. destruct (T id a I) as (_ & U & _).
      assert (X : closed_component (a_comps a) = (true, ig)).
      { clear -K U. induction (a_comps a) as [|c cs IH]; [destruct K|]. destruct K as [->|K]; [reflexivity|].
        assert (Y : closed_component cs = (true, ig)) by (apply IH; [exact K|intros b l b' l' H H'; apply (U b l b' l'); right; assumption]).
        destruct c; try exact Y. cbn. destruct (U b ignored true ig (or_introl eq_refl) (or_intror K)) as [-> ->]. reflexivity. }
      rewrite X in E. destruct (defined_properties A (a_props a)) as [l| | |] eqn:DP; try discriminate. cbn [bind] in E. injection E as <-. rewrite in_app_iff, (proj2 (defined_ok A D _ _ DP) p). unfold described. tauto.
    Qed.

    Lemma comp_iff c d : In c (a_comps a) -> comp_match regex L c d -> satisfies W C s d t <-> asatisfies W V A by_name a c t.
    Proof.
      intros IC H. destruct (T id a I) as (T1 & T2 & T3).
      destruct c as [c|r|k|k|z|z|b|r|r|b r|l|l|l|j|j|b ig|w|vs|j qmin qmax dj sib|b]; cbn [comp_match] in H.
      - subst d. cbn [satisfies asatisfies]. split; intros H v N; apply value_iff in N; apply test_iff, H, N.
      - destruct H as (n & -> & ->). cbn [satisfies asatisfies]. split; intros H v N; apply value_iff in N; apply test_iff, H, N.
      - destruct H as [_ ->]. cbn [satisfies asatisfies]. split; intros H v N; apply value_iff in N; apply test_iff, H, N.
      - subst d. cbn [satisfies asatisfies]. split; intros H v N; apply value_iff in N; apply test_iff, H, N.
      - subst d. cbn [satisfies asatisfies]. rewrite (usize_nonneg z (T1 z (or_introl IC))). apply at_least_same, value_iff.
      - subst d. cbn [satisfies asatisfies]. rewrite (usize_nonneg z (T1 z (or_intror IC))). apply at_most_same, value_iff.
      - subst d. cbn [satisfies asatisfies]. split; intros H B v w n Nv Nw; apply value_iff in Nv; apply value_iff in Nw; apply (H B v w n Nv Nw).
      - destruct H as (n & -> & ->). cbn [satisfies asatisfies]. split; intros H v; rewrite <- (H v), value_iff; reflexivity.
      - destruct H as (n & -> & ->). cbn [satisfies asatisfies]. split; intros H v N; apply value_iff in N; apply (H v N).
      - destruct H as (n & -> & ->). cbn [satisfies asatisfies]. split; intros H v w N; apply value_iff in N; apply (H v w N).
      - destruct H as (is & H & ->). cbn [satisfies asatisfies]. split; intros K v N; apply value_iff in N; apply (some_name l is v H), K, N.
      - destruct H as (is & H & ->). cbn [satisfies asatisfies]. split; intros K v N; apply value_iff in N; apply (all_names l is v H), K, N.
      - destruct H as (is & H & ->). cbn [satisfies asatisfies]. split; intros K v N; apply value_iff in N; apply (one_name l is v H), K, N.
      - destruct H as (i & H & ->). cbn [satisfies asatisfies]. split; intros K v N; apply value_iff in N; specialize (K v N); [rewrite (by_name_iff j i v H)|rewrite <- (by_name_iff j i v H)]; exact K.
      - destruct H as (i & H & ->). cbn [satisfies asatisfies]. split; intros K v N; apply value_iff in N; apply (by_name_iff j i v H), K, N.
      - subst d. cbn [satisfies asatisfies]. apply imp_iff. intros ->. split; intros H v p o N X; apply value_iff in N; apply (allowed_iff ig IC p), (H v p o N X).
      - destruct H as (u & H & ->). cbn [satisfies asatisfies]. rewrite value_iff. split.
        + intros N. exists u. split; [apply convert_value_iff, H|exact N].
        + intros (v & K & N). apply convert_value_iff in K. congruence.
      - destruct H as (ts & H & ->). cbn [satisfies asatisfies]. split; intros K v N; apply value_iff in N; apply (convert_values_in vs ts H v), K, N.
      - destruct H as (i & is & H & K & ->). cbn [satisfies asatisfies].
        assert (Q : forall v, (value_node (w_graph W) s t v /\ C i v /\ (forall j0, In j0 is -> ~ C j0 v)) <->
          (avalue_node (w_graph W) a t v /\ by_name j v /\ (dj = Some true -> forall j0, In j0 sib -> ~ by_name j0 v))).
        { intros v. rewrite value_iff, (by_name_iff j i v H), (none_names sib is v K).
          assert (X : (forall t0, In t0 sib -> ~ by_name t0 v) <-> (dj = Some true -> forall j0, In j0 sib -> ~ by_name j0 v)).
          { split; [intros Y _; exact Y|]. intros Y. destruct dj as [[|]|]; [apply Y; reflexivity| |]; (rewrite (T3 j qmin qmax _ sib IC); [intros x []|discriminate]). }
          clear -X. tauto. }
        split; intros [K1 K2]; (split; intros m E; [apply (at_least_same m _ _ Q), K1, E|apply (at_most_same m _ _ Q), K2, E]).
      - subst d. cbn [satisfies asatisfies]. split; [auto|]. intros _ E. discriminate.
    Qed.
    Lemma deactivated_iff : s_deactivated s = true <-> In (ADeactivated true) (a_comps a).
    Proof.
      rewrite (m_deact _ _ _ _ _ _ _ M). unfold is_deactivated. rewrite existsb_exists. split.
      - intros (c & H & K). destruct c; try discriminate. subst. exact H.
      - intros H. exists (ADeactivated true). auto.
    Qed.
    Lemma shape_iff :
      (s_deactivated s = true \/ (forall c, In c (s_comps s) -> satisfies W C s c t) /\ (forall j v, In j (s_props s) -> value_node (w_graph W) s t v -> C j v)) <->
      (In (ADeactivated true) (a_comps a) \/ (forall c, In c (a_comps a) -> asatisfies W V A by_name a c t) /\ (forall j v, In j (a_props a) -> avalue_node (w_graph W) a t v -> by_name j v)).
    Proof.
      rewrite deactivated_iff.
      assert (X : (forall c, In c (s_comps s) -> satisfies W C s c t) <-> (forall c, In c (a_comps a) -> asatisfies W V A by_name a c t)).
      { pose proof (m_comps _ _ _ _ _ _ _ M) as H. split; intros K x X.
        - destruct (Forall2_in_l _ _ _ x H X) as (d & D1 & D2). apply (comp_iff x d X D2), K, D1.
        - destruct (Forall2_in_r _ _ _ x H X) as (c & C1 & C2). apply (comp_iff c x C1 C2), K, C1. }
      assert (Y : (forall j v, In j (s_props s) -> value_node (w_graph W) s t v -> C j v) <-> (forall j v, In j (a_props a) -> avalue_node (w_graph W) a t v -> by_name j v)).
      { pose proof (m_props _ _ _ _ _ _ _ M) as H. split; intros K x v Z N; apply value_iff in N.
        - destruct (Forall2_in_l _ _ _ x H Z) as (i & I1 & I2). apply (by_name_iff x i v I2), (K i v I1 N).
        - destruct (Forall2_in_r _ _ _ x H Z) as (j & I1 & I2). apply (by_name_iff j x v I2), (K j v I1 N). }
      rewrite X, Y. reflexivity.
    Qed.
  End Shape.

  Lemma meaning_kept : conformance W (ir_schema st) C <-> aconformance W V A by_name.
  Proof.
    split.
    - intros K id a t I. destruct (shape_of regex A st D CS id a I) as (i & s & E & GS & M). rewrite (by_name_iff id i t E), (K i s t GS). apply (shape_iff id a s I M t).
    - intros K i s t GS. destruct (source_of regex A st CS i s GS) as (id & a & I & E & M). rewrite <- (by_name_iff id i t E), (K id a t I). symmetry. apply (shape_iff id a s I M t).
  Qed.
End Meaning.

(** ** the dependency graph *)
Section Level.
  Variable regex : N -> bool.
  Variable A : ast.
  Variable st : state.
  Hypothesis D : distinct A.
  Hypothesis CS : compiled regex A st.
  Notation L := (s_labels st).

  Lemma level_in i ls : In (i, ls) (level_schema st) <-> exists s ts, In (i, (s, ts)) (s_shapes st) /\ ls = level_shape (s, ts).
  Proof.
    unfold level_schema. rewrite in_map_iff. split.
    - intros ([j [s ts]] & E & H). cbn in E. injection E as -> <-. exists s, ts. auto.
    - intros (s & ts & H & ->). exists (i, (s, ts)). auto.
  Qed.
  Lemma match_in i s ts : In (i, (s, ts)) (s_shapes st) -> exists id a, In (id, a) A /\ label_of L id = Some i /\ shape_match regex A L id a s ts.
  Proof. intros H. destruct (c_done _ _ st CS _ H) as (id & a & FS & E & M). exists id, a. split; [apply find_shape_some, FS|]. split; [exact E|exact M]. Qed.
  Lemma refers_comp c d j : comp_match regex L c d -> comp_refers (level_comp d) j <-> exists u, acomp_refers c u /\ label_of L u = Some j.
  Proof.
    intros H. destruct c as [c|r|k|k|z|z|b|r|r|b r|l|l|l|u|u|b ig|w|vs|u qmin qmax dj sib|b]; cbn [comp_match] in H;
      try (subst d; cbn [level_comp comp_refers acomp_refers]; split; [intros []|intros (u & [] & _)]).
    - destruct H as (n & _ & ->). cbn. split; [intros []|intros (u & [] & _)].
    - destruct H as (_ & ->). cbn. split; [intros []|intros (u & [] & _)].
    - destruct H as (n & _ & ->). cbn. split; [intros []|intros (u & [] & _)].
    - destruct H as (n & _ & ->). cbn. split; [intros []|intros (u & [] & _)].
    - destruct H as (n & _ & ->). cbn. split; [intros []|intros (u & [] & _)].
    - destruct H as (is & H & ->). cbn. split; [intros J; destruct (Forall2_in_r _ _ _ j H J) as (u & U & E); exists u; auto|]. intros (u & U & E). destruct (Forall2_in_l _ _ _ u H U) as (i & I & E'). unfold labelled in E'. congruence.
    - destruct H as (is & H & ->). cbn. split; [intros J; destruct (Forall2_in_r _ _ _ j H J) as (u & U & E); exists u; auto|]. intros (u & U & E). destruct (Forall2_in_l _ _ _ u H U) as (i & I & E'). unfold labelled in E'. congruence.
    - destruct H as (is & H & ->). cbn. split; [intros J; destruct (Forall2_in_r _ _ _ j H J) as (u & U & E); exists u; auto|]. intros (u & U & E). destruct (Forall2_in_l _ _ _ u H U) as (i & I & E'). unfold labelled in E'. congruence.
    - destruct H as (i & H & ->). cbn. unfold labelled in H. split; [intros ->; exists u; auto|intros (x & -> & E); congruence].
    - destruct H as (i & H & ->). cbn. unfold labelled in H. split; [intros ->; exists u; auto|intros (x & -> & E); congruence].
    - destruct H as (x & _ & ->). cbn. split; [intros []|intros (u & [] & _)].
    - destruct H as (x & _ & ->). cbn. split; [intros []|intros (u & [] & _)].
    - destruct H as (i & is & H & _ & ->). cbn. unfold labelled in H. split; [intros ->; exists u; auto|intros (x & -> & E); congruence].
  Qed.
  Lemma refers_iff i j : refers (level_schema st) i j <-> exists x y, arefers A x y /\ label_of L x = Some i /\ label_of L y = Some j.
  Proof.
    split.
    - intros (ls & H & K). apply level_in in H. destruct H as (s & ts & H & ->). destruct (match_in i s ts H) as (id & a & I & E & M). unfold level_shape in K. cbn [fst snd LevelModel.comps LevelModel.props] in K. destruct K as [(c & C1 & C2)|K].
      + apply in_map_iff in C1. destruct C1 as (d & <- & C1). destruct (Forall2_in_r _ _ _ d (m_comps _ _ _ _ _ _ _ M) C1) as (c & X1 & X2). apply (refers_comp c d j X2) in C2. destruct C2 as (u & U1 & U2).
        exists id, u. split; [|auto]. exists a. split; [exact I|]. left. exists c. auto.
      + destruct (Forall2_in_r _ _ _ j (m_props _ _ _ _ _ _ _ M) K) as (u & U1 & U2). exists id, u. split; [|auto]. exists a. split; [exact I|]. right. exact U1.
    - intros (x & y & (a & I & K) & E1 & E2). destruct (shape_of regex A st D CS x a I) as (i' & s & E & GS & M). assert (i' = i) as -> by congruence. apply (get_shape_in regex A st CS) in GS. destruct GS as (ts & GS).
      exists (level_shape (s, ts)). split; [apply level_in; exists s, ts; auto|]. cbn [level_shape fst snd LevelModel.comps LevelModel.props]. destruct K as [(c & C1 & C2)|K].
      + left. destruct (Forall2_in_l _ _ _ c (m_comps _ _ _ _ _ _ _ M) C1) as (d & X1 & X2). exists (level_comp d). split; [apply in_map, X1|]. apply (refers_comp c d j X2). exists y. auto.
      + right. destruct (Forall2_in_l _ _ _ y (m_props _ _ _ _ _ _ _ M) K) as (k & X1 & X2). unfold labelled in X2. congruence.
  Qed.
  Lemma idx_in i : In i (map fst (level_schema st)) <-> exists x, label_of L x = Some i.
  Proof.
    unfold level_schema. rewrite map_map. cbn [fst]. rewrite in_map_iff. split.
    - intros ([j [s ts]] & E & H). cbn in E. subst j. destruct (match_in i s ts H) as (id & a & _ & E & _). exists id. exact E.
    - intros (x & H). destruct (c_labels _ _ st CS x i H) as ([s ts] & K). exists (i, (s, ts)). auto.
  Qed.
  Lemma level_wf : wf (level_schema st).
  Proof.
    split.
    - unfold level_schema. rewrite map_map. cbn [fst]. apply (i_shapes A st (c_inv _ _ st CS)).
    - intros i j (ls & H & K). apply level_in in H. destruct H as (s & ts & H & ->). destruct (match_in i s ts H) as (id & a & I & E & M). apply idx_in.
      cbn [level_shape fst snd LevelModel.comps LevelModel.props LevelModel.reifiers] in K. destruct K as [(c & C1 & C2)|[K|K]].
      + apply in_map_iff in C1. destruct C1 as (d & <- & C1). destruct (Forall2_in_r _ _ _ d (m_comps _ _ _ _ _ _ _ M) C1) as (c & X1 & X2). destruct C2 as [C2|C2].
        * apply (refers_comp c d j X2) in C2. destruct C2 as (u & _ & U). exists u. exact U.
        * destruct c as [c|r|k|k|z|z|b|r|r|b r|l|l|l|u|u|b ig|w|vs|u qmin qmax dj sib|b]; cbn [comp_match] in X2;
            try (subst d; destruct C2); try (destruct X2 as (? & _ & ->); destruct C2); try (destruct X2 as (_ & ->); destruct C2).
          destruct X2 as (k & is & _ & X2 & ->). cbn in C2. destruct (Forall2_in_r _ _ _ j X2 C2) as (v & _ & V). exists v. exact V.
      + destruct (Forall2_in_r _ _ _ j (m_props _ _ _ _ _ _ _ M) K) as (u & _ & U). exists u. exact U.
      + pose proof (m_reifier _ _ _ _ _ _ _ M) as R. unfold reifier_match in R. destruct (a_path a) as [p|]; [|rewrite R in K; destruct K]. destruct (a_reifier a) as [[rq us]|]; [|rewrite R in K; destruct K].
        destruct R as (n & is & _ & R & EQ). rewrite EQ in K. cbn in K. destruct (Forall2_in_r _ _ _ j R K) as (u & _ & U). exists u. exact U.
  Qed.
  Lemma arefers_known x y : arefers A x y -> (exists i, label_of L x = Some i) /\ exists j, label_of L y = Some j.
  Proof.
    intros (a & I & K). destruct (shape_of regex A st D CS x a I) as (i & s & E & GS & M). split; [exists i; exact E|]. destruct K as [(c & C1 & C2)|K].
    - destruct (Forall2_in_l _ _ _ c (m_comps _ _ _ _ _ _ _ M) C1) as (d & _ & X2). destruct c as [c|r|k|k|z|z|b|r|r|b r|l|l|l|u|u|b ig|w|vs|u qmin qmax dj sib|b]; cbn [acomp_refers] in C2; try contradiction; cbn [comp_match] in X2.
      1-3: destruct X2 as (is & X2 & _); destruct (Forall2_in_l _ _ _ y X2 C2) as (j & _ & J); exists j; exact J.
      1-2: destruct X2 as (j & X2 & _); subst y; exists j; exact X2.
      destruct X2 as (j & is & X2 & _). subst y. exists j. exact X2.
    - destruct (Forall2_in_l _ _ _ y (m_props _ _ _ _ _ _ _ M) K) as (j & _ & J). exists j. exact J.
  Qed.
  Lemma recursive_iff : recursive (refers (level_schema st)) <-> arecursive A.
  Proof.
    split.
    - intros (i & b & H & R).
      assert (X : forall b i, reach (refers (level_schema st)) b i -> forall y, label_of L y = Some b -> forall x z, label_of L x = Some i -> arefers A z y -> clos_trans term (arefers A) z x).
      { clear -D CS. intros b i R. induction R as [b|b c i H R IH]; intros y Y x z Z Q.
        - assert (x = y) as -> by (apply (label_inj L x y b (i_nums A st (c_inv _ _ st CS)) Z Y)). apply t_step, Q.
        - apply refers_iff in H. destruct H as (y' & w & H & E1 & E2). assert (y' = y) as -> by (apply (label_inj L y' y b (i_nums A st (c_inv _ _ st CS)) E1 Y)).
          apply t_trans with y; [apply t_step, Q|]. apply (IH w E2 x y Z H). }
      apply refers_iff in H. destruct H as (x & y & H & E1 & E2). exists x. apply (X b i R y E2 x x E1 H).
    - intros (x & H).
      assert (X : forall x y, clos_trans term (arefers A) x y -> exists i j, label_of L x = Some i /\ label_of L y = Some j /\ exists b, refers (level_schema st) i b /\ reach (refers (level_schema st)) b j).
      { clear -D CS. intros x y H. induction H as [x y H|x y z H IH K JH].
        - destruct (arefers_known x y H) as [[i E1] [j E2]]. exists i, j. split; [exact E1|]. split; [exact E2|]. exists j. split; [apply refers_iff; exists x, y; auto|apply reach_refl].
        - destruct IH as (i & j & E1 & E2 & b & B1 & B2). destruct JH as (j' & k & E3 & E4 & c & C1 & C2). assert (j' = j) as -> by congruence. exists i, k. split; [exact E1|]. split; [exact E4|]. exists b. split; [exact B1|].
          apply (reach_trans _ _ j _ B2). apply reach_step with c; assumption. }
      destruct (X x x H) as (i & j & E1 & E2 & b & B1 & B2). assert (j = i) as -> by congruence. exists i, b. auto.
  Qed.
  Lemma shapes_count : length (level_schema st) <= length A.
  Proof.
    unfold level_schema. rewrite map_length. pose proof (c_inv _ _ st CS) as IV.
    assert (H1 : length (map fst (s_shapes st)) <= length (map snd L)).
    { apply NoDup_incl_length; [apply (i_shapes A st IV)|]. intros i H. apply in_map_iff in H. destruct H as ([j s] & E & H). cbn in E. subst j. apply (i_idx A st IV i s H). }
    assert (H2 : length (map fst L) <= length (map fst A)) by (apply NoDup_incl_length; [apply (i_names A st IV)|apply (i_known A st IV)]).
    rewrite !map_length in *. lia.
  Qed.
End Level.

Definition fuel_for (A : ast) : nat := S (S (length A)).
Section Compile.
  Variable regex : N -> bool.
  Variable scc : GraphModel.graph posneg -> list (list nat).
  Variable fuel : nat.
  Variable A : ast.
  Hypothesis D : distinct A.
  Hypothesis FU : fuel_for A <= fuel.
  Lemma compile_cases :
    (exists st g, ShcModel.compile regex scc fuel A = Ok (st, g) /\ compiled regex A st /\ LevelModel.compile fuel (level_schema st) scc = Some (Compiled g) /\ ~ arecursive A) \/
    (ShcModel.compile regex scc fuel A = Err /\ (~ well_written regex A \/ arecursive A)).
  Proof.
    unfold ShcModel.compile, fuel_for in *. pose proof (register_all_ok regex A fuel D ltac:(lia)) as R. destruct (register_all regex A fuel A start_state) as [st| | |]; cbn [bind]; try contradiction.
    - pose proof (shapes_count regex A st R) as SC.
      destruct (C30_accepts_iff_not_recursive_partial (level_schema st) scc fuel (level_wf regex A st R) ltac:(unfold LevelSpec.enough; lia)) as (r & E & X). rewrite (recursive_iff regex A st D R) in X. rewrite E.
      destruct r as [| |g].
      + right. split; [reflexivity|]. right.
        destruct (compile_ok (level_schema st) scc fuel (level_wf regex A st R) ltac:(unfold LevelSpec.enough; lia)) as (g & _ & _ & _ & [[RC _]|(_ & E' & _)]); [apply (recursive_iff regex A st D R), RC|congruence].
      + right. split; [reflexivity|]. right.
        destruct (compile_ok (level_schema st) scc fuel (level_wf regex A st R) ltac:(unfold LevelSpec.enough; lia)) as (g & _ & _ & _ & [[RC _]|(_ & E' & _)]); [apply (recursive_iff regex A st D R), RC|congruence].
      + left. exists st, g. split; [reflexivity|]. split; [exact R|]. split; [exact E|]. apply X. exists g. reflexivity.
    - right. split; [reflexivity|]. left. intros WW. exact (good_not_bad regex A D WW R).
  Qed.
End Compile.
