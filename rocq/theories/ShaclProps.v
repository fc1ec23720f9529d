(** Properties C29, C31, C32, C53 and C54: validation of SHACL shapes with a shared cache. *)
From Coq Require Import List Bool NArith ZArith Permutation Lia Arith.
Import ListNotations.
From Verif Require Import PathModel PathSpec PathLemmas PathProps ProgModel ProgLemmas ShaclModel ShaclSpec ShaclLemmas ShaclConf.

Section General.
  Variable W : world.
  Variable sch : schema.
  Variable rank : nat -> nat.
  Variable start : nat -> term -> Prop.
  Hypothesis F : fine W sch rank start.
  Notation cor := (correct W sch rank start).

  Lemma perform_ok j P : proper sch start j -> safe cor P (perform W sch rank j) (good (flat_map (V W sch rank (j_shape j)) (j_focus j))).
  Proof.
    intros (N & G & S). apply (validate_ok W sch rank start F); [lia|exact G|exact N|]. intros t T. apply asked_start, S, T.
  Qed.
  Lemma jobs_ok c jobs c' rs : good_cache cor c -> Forall (proper sch start) jobs -> pool_run ckey_eqb c (map (perform W sch rank) jobs) c' rs ->
    good_cache cor c' /\ Forall2 (fun j r => good (flat_map (V W sch rank (j_shape j)) (j_focus j)) r) jobs rs.
  Proof.
    intros G Fj R.
    destruct (pool_run_safe cor ckey_eqb ckey_eqb_eq ckey_eqb_refl c _ c' rs R (map (fun j r => good (flat_map (V W sch rank (j_shape j)) (j_focus j)) r) jobs) G) as [G' K].
    - clear R. induction Fj as [|j jobs J Fj IH]; cbn [map]; constructor; [apply perform_ok, J|exact IH].
    - split; [exact G'|]. clear - K. revert rs K. induction jobs as [|j jobs IH]; intros rs K; inversion K; subst; constructor; auto.
  Qed.
  Lemma history_ok c : history W sch rank start c -> good_cache cor c.
  Proof.
    induction 1 as [|c jobs c' rs H IH Fj R]; [intros k v X; discriminate|]. apply (jobs_ok c jobs c' rs IH Fj R).
  Qed.
  Lemma single_ok {A} c (p : prog ckey (list result) A) c' r Q : history W sch rank start c -> pool_run ckey_eqb c [p] c' [r] -> (forall P, safe cor P p Q) -> Q r.
  Proof.
    intros H R S. destruct (pool_run_safe cor ckey_eqb ckey_eqb_eq ckey_eqb_refl c [p] c' [r] R [Q] (history_ok c H)) as [_ K].
    - constructor; [apply S|constructor].
    - inversion K; assumption.
  Qed.

  (** ** C29: whatever was validated before, and by however many threads, a validation finds the same results *)
  Theorem C29_cached_partial j c c1 c2 r1 r2 : proper sch start j -> history W sch rank start c ->
    pool_run ckey_eqb empty_cache [perform W sch rank j] c1 [r1] -> pool_run ckey_eqb c [perform W sch rank j] c2 [r2] ->
    exists l1 l2, r1 = Ok l1 /\ r2 = Ok l2 /\ Permutation l1 l2.
  Proof.
    intros J H R1 R2.
    destruct (single_ok _ _ _ _ _ (history_empty W sch rank start) R1 (fun P => perform_ok j P J)) as (l1 & E1 & P1).
    destruct (single_ok _ _ _ _ _ H R2 (fun P => perform_ok j P J)) as (l2 & E2 & P2).
    exists l1, l2. split; [exact E1|]. split; [exact E2|]. rewrite P1, P2. reflexivity.
  Qed.
  (** validating nodes together or one by one is the same *)
  Theorem C29_together_partial src i t fs c c1 c2 c3 r1 r2 r3 : history W sch rank start c -> proper sch start (mkJob src i (t :: fs)) ->
    pool_run ckey_eqb c [perform W sch rank (mkJob src i (t :: fs))] c1 [r1] ->
    pool_run ckey_eqb c [perform W sch rank (mkJob src i [t])] c2 [r2] -> pool_run ckey_eqb c [perform W sch rank (mkJob src i fs)] c3 [r3] ->
    exists l1 l2 l3, r1 = Ok l1 /\ r2 = Ok l2 /\ r3 = Ok l3 /\ Permutation l1 (l2 ++ l3).
  Proof.
    intros H J R1 R2 R3.
    assert (J2 : proper sch start (mkJob src i [t])).
    { destruct J as (N & G & S). split; [repeat constructor; intros []|]. split; [exact G|]. intros u [<-|[]]. apply S. left. reflexivity. }
    assert (J3 : proper sch start (mkJob src i fs)).
    { destruct J as (N & G & S). split; [inversion N; assumption|]. split; [exact G|]. intros u Hu. apply S. right. exact Hu. }
    destruct (single_ok _ _ _ _ _ H R1 (fun P => perform_ok _ P J)) as (l1 & E1 & P1).
    destruct (single_ok _ _ _ _ _ H R2 (fun P => perform_ok _ P J2)) as (l2 & E2 & P2).
    destruct (single_ok _ _ _ _ _ H R3 (fun P => perform_ok _ P J3)) as (l3 & E3 & P3).
    exists l1, l2, l3. split; [exact E1|]. split; [exact E2|]. split; [exact E3|]. cbn [j_shape j_focus flat_map] in *. rewrite P1, P2, P3, app_nil_r. reflexivity.
  Qed.

  (** ** C53: the interleaving of the threads has no influence on the report *)
  Variable targets : nat -> list term.
  Definition scheduled (levels : list (list nat)) : Prop :=
    forall level i, In level levels -> In i level -> NoDup (targets i) /\ (exists s, get_shape sch i = Some s) /\ forall t, In t (targets i) -> start i t.
  Definition deep_enough (fuel : nat) (levels : list (list nat)) : Prop := forall level i, In level levels -> In i level -> rank i < fuel.

  Lemma process_ok fuel c levels out : process W sch targets fuel c levels out -> good_cache cor c -> scheduled levels -> deep_enough fuel levels ->
    good (flat_map (fun level => flat_map (fun i => flat_map (V W sch rank i) (targets i)) level) levels) out.
  Proof.
    assert (T : forall c level c' rs, good_cache cor c -> pool_run ckey_eqb c (map (thread W sch targets fuel) level) c' rs ->
      (forall i, In i level -> rank i < fuel /\ NoDup (targets i) /\ (exists s, get_shape sch i = Some s) /\ forall t, In t (targets i) -> start i t) ->
      good_cache cor c' /\ good (flat_map (fun i => flat_map (V W sch rank i) (targets i)) level) (extend_results rs)).
    { intros c0 level c' rs G R H.
      destruct (pool_run_safe cor ckey_eqb ckey_eqb_eq ckey_eqb_refl c0 _ c' rs R (map (fun i r => good (flat_map (V W sch rank i) (targets i)) r) level) G) as [G' K].
      - clear R. induction level as [|i level IH]; cbn [map]; constructor.
        + destruct (H i (or_introl eq_refl)) as (L & N & [s Gs] & S). unfold thread. rewrite Gs.
          apply (validate_ok W sch rank start F); [exact L|exists s; exact Gs|exact N|]. intros t Ht. apply asked_start, S, Ht.
        + apply IH. intros k Hk. apply H. right. exact Hk.
      - split; [exact G'|]. clear - K. revert rs K. induction level as [|i level IH]; intros rs K; inversion K as [|r Q rs' Qs' K1 K2]; subst.
        + exists []. split; [reflexivity|constructor].
        + destruct K1 as (a & -> & Pa). destruct (IH rs' K2) as (b & Eb & Pb). exists (a ++ b). cbn [extend_results bind flat_map]. rewrite Eb. split; [reflexivity|]. apply Permutation_app; assumption. }
    intros H. induction H as [c|c level levels c' rs a b R E H IH|c level levels c' rs r R E Ne]; intros G S D.
    - exists []. split; [reflexivity|constructor].
    - destruct (T c level c' rs G R) as [G' K]; [intros i Hi; split; [apply (D level i (or_introl eq_refl) Hi)|apply (S level i (or_introl eq_refl) Hi)]|].
      rewrite E in K. destruct K as (a' & X & Pa). injection X as <-.
      destruct IH as (l & -> & Pl); [exact G'|intros lv k Hl; apply S; right; exact Hl|intros lv k Hl; apply D; right; exact Hl|].
      exists (a ++ l). split; [reflexivity|]. cbn [flat_map]. apply Permutation_app; assumption.
    - destruct (T c level c' rs G R) as [_ (a & X & _)]; [intros i Hi; split; [apply (D level i (or_introl eq_refl) Hi)|apply (S level i (or_introl eq_refl) Hi)]|].
      exfalso. apply (Ne a). congruence.
  Qed.
  Theorem C53_schedule_partial fuel fuel' levels levels' out out' :
    process W sch targets fuel empty_cache levels out -> process W sch targets fuel' empty_cache levels' out' ->
    scheduled levels -> scheduled levels' -> deep_enough fuel levels -> deep_enough fuel' levels' -> Permutation (concat levels) (concat levels') ->
    exists l l', out = Ok l /\ out' = Ok l' /\ Permutation l l'.
  Proof.
    intros H H' S S' D D' Pm.
    assert (E : good_cache cor empty_cache) by (intros k v X; discriminate).
    destruct (process_ok _ _ _ _ H E S D) as (l & -> & Pl). destruct (process_ok _ _ _ _ H' E S' D') as (l' & -> & Pl').
    exists l, l'. split; [reflexivity|]. split; [reflexivity|]. rewrite Pl, Pl'.
    assert (X : forall ls, flat_map (fun level => flat_map (fun i => flat_map (V W sch rank i) (targets i)) level) ls = flat_map (fun i => flat_map (V W sch rank i) (targets i)) (concat ls)).
    { induction ls as [|a ls IH]; [reflexivity|]. cbn. rewrite flat_map_app, IH. reflexivity. }
    rewrite !X. apply Permutation_flat_map, Pm.
  Qed.

  (** ** C54: the report is empty exactly when every target conforms *)
  Hypothesis PL : plain W sch start.
  Variable C : nat -> term -> Prop.
  Hypothesis HC : conformance W sch C.
  Theorem C54_validate_partial j c c' r : proper sch start j -> history W sch rank start c -> pool_run ckey_eqb c [perform W sch rank j] c' [r] ->
    exists l, r = Ok l /\ (l = [] <-> forall t, In t (j_focus j) -> C (j_shape j) t).
  Proof.
    intros J H R. destruct (single_ok _ _ _ _ _ H R (fun P => perform_ok j P J)) as (l & -> & P). exists l. split; [reflexivity|].
    destruct J as (N & G & S).
    assert (K : forall t, In t (j_focus j) -> V W sch rank (j_shape j) t = [] <-> C (j_shape j) t).
    { intros t T. apply (conforms_ok W sch rank start F PL C HC (Datatypes.S (rank (j_shape j)))); [lia|apply asked_start, S, T|exact G]. }
    split.
    - intros -> t T. apply (K t T). apply Permutation_nil in P. rewrite flat_map_nil in P. apply P, T.
    - intro X. replace (flat_map (V W sch rank (j_shape j)) (j_focus j)) with (@nil result) in P; [apply Permutation_nil; symmetry; exact P|].
      symmetry. apply flat_map_nil. intros t T. apply (K t T), X, T.
  Qed.
  Theorem C54_report_partial fuel levels out : process W sch targets fuel empty_cache levels out -> scheduled levels -> deep_enough fuel levels ->
    exists l, out = Ok l /\ (l = [] <-> forall level i t, In level levels -> In i level -> In t (targets i) -> C i t).
  Proof.
    intros H S D. destruct (process_ok _ _ _ _ H ltac:(intros k v X; discriminate) S D) as (l & -> & P). exists l. split; [reflexivity|].
    assert (K : forall level i t, In level levels -> In i level -> In t (targets i) -> V W sch rank i t = [] <-> C i t).
    { intros level i t L I T. destruct (S level i L I) as (_ & G & St). apply (conforms_ok W sch rank start F PL C HC (Datatypes.S (rank i))); [lia|apply asked_start, St, T|exact G]. }
    split.
    - intros -> level i t L I T. apply (K level i t L I T). apply Permutation_nil in P. rewrite flat_map_nil in P. specialize (P level L). rewrite flat_map_nil in P. specialize (P i I).
      rewrite flat_map_nil in P. apply P, T.
    - intro X. enough (Z : flat_map (fun level => flat_map (fun i => flat_map (V W sch rank i) (targets i)) level) levels = []).
      { rewrite Z in P. apply Permutation_nil. symmetry. exact P. }
      apply flat_map_nil. intros level L. apply flat_map_nil. intros i I. apply flat_map_nil. intros t T. apply (K level i t L I T), (X level i t L I T).
  Qed.

  (** ** C31 and C32: single components *)
  (** the validation of a component of the shape [i], for one focus node, after any history *)
  Definition evaluates (i : nat) (s : shape) (c : comp) (t : term) (l : list result) : Prop :=
    forall cch vs c' r, history W sch rank start cch -> values W s t = Ok vs ->
      pool_run ckey_eqb cch [component W sch (validate W sch (rank i) (Some (s_id s))) s c [(t, vs)]] c' [r] ->
      exists l', r = Ok l' /\ Permutation l' l.
  Lemma evaluates_ok i s c t o vs : get_shape sch i = Some s -> asked (w_graph W) sch start i t -> In c (s_comps s) -> object_of W t = Some o -> values W s t = Ok vs ->
    evaluates i s c t (ceval W (V W sch rank) s c t o vs).
  Proof.
    intros G A I O E cch vs' c' r H E' R. rewrite E in E'. injection E' as <-.
    assert (K : good (flat_map (cevalf W (V W sch rank) s c) [(t, vs)]) r).
    { apply (single_ok _ _ _ _ _ H R). intro P. pose proof (values_spec W sch rank start F i s t G) as X. rewrite E in X.
      apply (component_ok W sch rank start F i s G); [|exact I| |repeat constructor; intros []].
      - intros P' j fs J N As. destruct (fine_rank _ _ _ _ F i s G j J) as [Y1 Y2]. apply (validate_ok W sch rank start F); assumption.
      - intros fv [<-|[]]. split; [exact A|]. split; [apply X|]. intros v Hv. apply X, Hv. }
    destruct K as (l & -> & P). exists l. split; [reflexivity|]. cbn [flat_map] in P. rewrite app_nil_r in P. unfold cevalf in P. cbn [fst snd] in P. rewrite O in P. exact P.
  Qed.
  Lemma each_map s o tg vs b : each W s o tg vs b = map (fun v => mk s o tg (object_of W v)) (filter b vs).
  Proof. unfold each. induction vs as [|v vs IH]; [reflexivity|]. cbn. destruct (b v); cbn; rewrite IH; reflexivity. Qed.

  (** one result for each value node that violates the component, and no others *)
  Theorem C31_logical_partial i s c t o : get_shape sch i = Some s -> asked (w_graph W) sch start i t -> In c (s_comps s) -> logical c -> object_of W t = Some o ->
    exists bad, NoDup bad /\ (forall v, In v bad <-> value_node (w_graph W) s t v /\ violating C c v) /\
      evaluates i s c t (map (fun v => mk s o (tag_of c) (object_of W v)) bad).
  Proof.
    intros G A I Lg O. destruct (values_total W sch rank start F PL i s t G A) as (vs & E & N & Hv).
    assert (K : forall j v, In j (comp_refs c) -> In v vs -> ok (V W sch rank) j v = true <-> C j v).
    { intros j v J Iv. unfold ok. rewrite no_results_nil. pose proof (refs_comp s c j I J) as J'. destruct (fine_rank _ _ _ _ F i s G j J') as [X R].
      apply (conforms_ok W sch rank start F PL C HC (S (rank j))); [lia| |exact X]. apply (asked_ref _ _ _ i t s j v A G J'). apply Hv, Iv. }
    assert (KF : forall j v, In j (comp_refs c) -> In v vs -> ok (V W sch rank) j v = false <-> ~ C j v).
    { intros j v J Jv. rewrite <- (K j v J Jv). destruct (ok (V W sch rank) j v); split; congruence. }
    assert (D : exists b, ceval W (V W sch rank) s c t o vs = each W s o (tag_of c) vs b /\ forall v, In v vs -> b v = true <-> violating C c v).
    { destruct c as [l|l|l|j|j|j sib qmin qmax|n|n|w|l|p|p|b p|b|b|k]; try destruct Lg; cbn [ceval tag_of comp_refs violating] in *; eexists; (split; [reflexivity|]); intros v Iv; cbn beta.
      - rewrite negb_true_iff, forallb_false. split; intros (j & J & X); exists j; (split; [exact J|]); apply (KF j v J Iv), X.
      - rewrite negb_true_iff. split.
        + intros X j J. apply (KF j v J Iv). destruct (ok (V W sch rank) j v) eqn:Y; [|reflexivity]. rewrite <- X. symmetry. apply existsb_exists. exists j. auto.
        + intro X. destruct (existsb _ l) eqn:Y; [|reflexivity]. apply existsb_exists in Y. destruct Y as (j & J & Y). destruct (X j J). apply (K j v J Iv), Y.
      - rewrite negb_true_iff, Nat.eqb_neq, length_filter_one. apply not_iff_compat. split; intros (l1 & j & l2 & -> & X1 & X2); exists l1, j, l2; (split; [reflexivity|]).
        + split; [apply (K j v); [apply in_elt|exact Iv|exact X1]|]. intros k Hk. apply (KF k v); [apply in_app_or in Hk; apply in_or_app; cbn; tauto|exact Iv|apply X2, Hk].
        + split; [apply (K j v); [apply in_elt|exact Iv|exact X1]|]. intros k Hk. apply (KF k v); [apply in_app_or in Hk; apply in_or_app; cbn; tauto|exact Iv|apply X2, Hk].
      - apply (K j v (or_introl eq_refl) Iv).
      - rewrite negb_true_iff. apply (KF j v (or_introl eq_refl) Iv). }
    destruct D as (b & D1 & D2). exists (filter b vs). split; [apply nodup_filter, N|]. split.
    - intro v. rewrite filter_In, <- Hv. split; intros [X1 X2]; (split; [exact X1|]); apply (D2 v X1), X2.
    - rewrite <- each_map, <- D1. apply (evaluates_ok i s c t o vs G A I O E).
  Qed.

  (** a component reports something exactly when the statement it makes about the value nodes is false *)
  Theorem C32_components_partial i s c t cch vs c' r : get_shape sch i = Some s -> asked (w_graph W) sch start i t -> In c (s_comps s) ->
    history W sch rank start cch -> values W s t = Ok vs ->
    pool_run ckey_eqb cch [component W sch (validate W sch (rank i) (Some (s_id s))) s c [(t, vs)]] c' [r] ->
    exists l, r = Ok l /\ (l = [] <-> satisfies W C s c t).
  Proof.
    intros G A I H E R. destruct (object_total W sch rank start F t) as [o O].
    destruct (evaluates_ok i s c t o vs G A I O E cch vs c' r H E R) as (l & -> & P). exists l. split; [reflexivity|].
    pose proof (values_spec W sch rank start F i s t G) as X. rewrite E in X. destruct X as [N Hv].
    rewrite <- (satisfied W sch rank start F PL C i s G t o A O vs N Hv c I).
    - split; intro Z; rewrite Z in P; [apply Permutation_nil, P|apply Permutation_nil; symmetry; exact P].
    - intros j v J Iv. unfold ok. rewrite no_results_nil. pose proof (refs_comp s c j I J) as J'. destruct (fine_rank _ _ _ _ F i s G j J') as [Y R'].
      apply (conforms_ok W sch rank start F PL C HC (S (rank j))); [lia| |exact Y]. apply (asked_ref _ _ _ i t s j v A G J'). apply Hv, Iv.
  Qed.
  (** equals has one result for each node that is in one of the two sets only *)
  Theorem C32_equals_partial i s p t o : get_shape sch i = Some s -> asked (w_graph W) sch start i t -> In (CEquals p) (s_comps s) -> object_of W t = Some o ->
    exists bad, NoDup bad /\
      (forall v, In v bad <-> (value_node (w_graph W) s t v /\ ~ In (t, p, v) (w_graph W)) \/ (In (t, p, v) (w_graph W) /\ ~ value_node (w_graph W) s t v)) /\
      evaluates i s (CEquals p) t (map (fun v => mk s o TEquals (object_of W v)) bad).
  Proof.
    intros G A I O. destruct (values_total W sch rank start F PL i s t G A) as (vs & E & N & Hv).
    assert (NL : ~ literal t) by (apply (plain_equals _ _ _ PL i s p t A G I)).
    assert (Es : term_as_subject t = Some t) by (destruct t; cbn in *; tauto).
    set (ps := tset (objects_of W t p)).
    assert (Hp : forall v, In v ps <-> In (t, p, v) (w_graph W)) by (intro v; unfold ps; rewrite tset_in; apply objects_of_in).
    exists (filter (fun v => negb (tmem v vs)) ps ++ filter (fun v => negb (tmem v ps)) vs).
    assert (M : forall v l, negb (tmem v l) = true <-> ~ In v l).
    { intros v l. rewrite negb_true_iff. rewrite <- tmem_spec. destruct (tmem v l); split; congruence. }
    split; [|split].
    - assert (X : forall a b : list term, NoDup a -> NoDup b -> (forall x, In x a -> ~ In x b) -> NoDup (a ++ b)).
      { induction a as [|x a IH]; cbn; intros b Na Nb Dj; [exact Nb|]. inversion Na; subst. constructor.
        - intro K. apply in_app_or in K. destruct K as [K|K]; [contradiction|]. apply (Dj x (or_introl eq_refl) K).
        - apply IH; auto. }
      apply X; [apply nodup_filter, tset_nodup|apply nodup_filter, N|]. intros x Hx Hy. apply filter_In in Hx. apply filter_In in Hy. destruct Hx as [_ Hx], Hy as [Hy _]. apply M in Hx. contradiction.
    - intro v. rewrite in_app_iff, !filter_In, !M, Hp, Hv. tauto.
    - pose proof (evaluates_ok i s (CEquals p) t o vs G A I O E) as X. cbn [ceval] in X. rewrite Es in X. fold ps in X. rewrite map_app.
      assert (Z : forall (f : term -> bool) l, flat_map (fun v => if f v then [] else [mk s o TEquals (object_of W v)]) l = map (fun v => mk s o TEquals (object_of W v)) (filter (fun v => negb (f v)) l)).
      { intros f l. induction l as [|v l IH]; [reflexivity|]. cbn. destruct (f v); cbn; rewrite IH; reflexivity. }
      rewrite (Z (fun v => tmem v vs)), (Z (fun v => tmem v ps)) in X. exact X.
  Qed.
End General.
Print Assumptions C29_cached_partial.
Print Assumptions C29_together_partial.
Print Assumptions C53_schedule_partial.
Print Assumptions C54_validate_partial.
Print Assumptions C54_report_partial.
Print Assumptions C31_logical_partial.
Print Assumptions C32_components_partial.
Print Assumptions C32_equals_partial.

(** ** the hypotheses can be met *)
Definition plain_world (g : graph) : world :=
  mkWorld g (fun l => l) (fun n => Some n) (fun a b => match a, b with TLit n, TLit m => Some (N.compare n m) | _, _ => None end)
    (fun _ => None) (fun k v => match v with TLit n => N.ltb n k | _ => true end) (fun _ => []).
Definition node_shape (id : N) (cs : list comp) (ps : list nat) : shape := mkShape (TIri id) None cs ps false 0 [] None.
Definition property_shape (id : N) (p : N) (cs : list comp) (ps : list nat) : shape := mkShape (TIri id) (Some (PPred p)) cs ps false 0 [] None.

(* a node shape with a property shape; the values of the property are tested by another shape, and not by a third one *)
Definition ex_schema : schema :=
  [(0, node_shape 100 [CNot 3] [1]); (1, property_shape 101 10 [CMinCount 1; CNode 2; CEquals 11] []);
   (2, node_shape 102 [CTest 7] []); (3, property_shape 103 12 [CMinCount 1] [])].
Definition ex_world : world :=
  plain_world [(TIri 1, 10%N, TLit 8); (TIri 1, 11%N, TLit 8); (TIri 2, 10%N, TLit 5); (TIri 2, 11%N, TLit 6)].
Definition ex_rank (i : nat) : nat := match i with 0 => 2 | 1 => 1 | _ => 0 end.
Definition ex_start (i : nat) (t : term) : Prop := i = 0 /\ (t = TIri 1 \/ t = TIri 2).

Lemma object_plain g t : object_of (plain_world g) t = Some t.
Proof. destruct t; reflexivity. Qed.
Lemma ex_shape i s : get_shape ex_schema i = Some s ->
  (i = 0 /\ s = node_shape 100 [CNot 3] [1]) \/ (i = 1 /\ s = property_shape 101 10 [CMinCount 1; CNode 2; CEquals 11] []) \/
  (i = 2 /\ s = node_shape 102 [CTest 7] []) \/ (i = 3 /\ s = property_shape 103 12 [CMinCount 1] []).
Proof.
  destruct i as [|[|[|[|i]]]]; cbn; intro H; try discriminate; injection H as <-; auto 8.
Qed.
Lemma ex_asked i t : asked (w_graph ex_world) ex_schema ex_start i t ->
  (i = 2 \/ ((i = 0 \/ i = 1 \/ i = 3) /\ (t = TIri 1 \/ t = TIri 2))).
Proof.
  induction 1 as [i t [-> H]|i t s j v A IH G J Nv]; [right; auto|].
  apply ex_shape in G. destruct G as [[-> ->]|[[-> ->]|[[-> ->]|[-> ->]]]]; cbn in J, Nv.
  - subst v. destruct IH as [X|[_ X]]; [discriminate|]. destruct J as [<-|[<-|[]]]; right; auto.
  - destruct J as [<-|[]]. left. reflexivity.
  - destruct J.
  - destruct J.
Qed.
Lemma ex_fine : fine ex_world ex_schema ex_rank ex_start.
Proof.
  split.
  - intros l. apply Permutation_refl.
  - intros i s G j J. apply ex_shape in G. destruct G as [[-> ->]|[[-> ->]|[[-> ->]|[-> ->]]]]; cbn in J.
    + destruct J as [<-|[<-|[]]]; (split; [cbn; eauto|cbn; lia]).
    + destruct J as [<-|[]]; (split; [cbn; eauto|cbn; lia]).
    + destruct J.
    + destruct J.
  - intros n X. discriminate.
  - intros i t t' _ _. unfold ex_world. rewrite !object_plain. congruence.
  - intros i t [-> _]. cbn. eauto.
  - intros i s p G P. apply ex_shape in G. destruct G as [[-> ->]|[[-> ->]|[[-> ->]|[-> ->]]]]; cbn in P; try discriminate; injection P as <-; cbn; auto.
  - intros i s G. apply ex_shape in G. destruct G as [[-> ->]|[[-> ->]|[[-> ->]|[-> ->]]]]; reflexivity.
  - intros i s t A G H. apply ex_shape in G.
    destruct G as [[-> ->]|[[-> ->]|[[-> ->]|[-> ->]]]]; cbn in H; destruct H as [(b & p & H)|(p & H)]; repeat (destruct H as [H|H]; try discriminate); destruct H.
Qed.
Lemma ex_plain : plain ex_world ex_schema ex_start.
Proof.
  split.
  - intros s p o [H|[H|[H|[H|[]]]]]; injection H as <- <- <-; exact Logic.I.
  - intros i s p t x A G P L. apply ex_asked in A. apply ex_shape in G.
    destruct G as [[-> ->]|[[-> ->]|[[-> ->]|[-> ->]]]]; cbn in P; try discriminate; injection P as <-; cbn in L; subst x;
      destruct A as [X|[_ [->| ->]]]; try discriminate; intros [].
  - intros i s p t A G H. apply ex_asked in A. apply ex_shape in G.
    destruct G as [[-> ->]|[[-> ->]|[[-> ->]|[-> ->]]]]; cbn in H; repeat (destruct H as [H|H]; try discriminate); try destruct H;
      destruct A as [X|[_ [->| ->]]]; try discriminate; intros [].
  - intros i s p t v w A G H. apply ex_shape in G.
    destruct G as [[-> ->]|[[-> ->]|[[-> ->]|[-> ->]]]]; cbn in H; repeat (destruct H as [H|H]; try discriminate); destruct H.
  - intros i s G H. apply ex_shape in G.
    destruct G as [[-> ->]|[[-> ->]|[[-> ->]|[-> ->]]]]; cbn in H; repeat (destruct H as [H|H]; try discriminate); destruct H.
Qed.
Definition ex_job : job := mkJob None 0 [TIri 1; TIri 2].
Example C29_met : fine ex_world ex_schema ex_rank ex_start /\ plain ex_world ex_schema ex_start /\ proper ex_schema ex_start ex_job /\
  (exists C, conformance ex_world ex_schema C) /\
  (exists c c1, history ex_world ex_schema ex_rank ex_start c /\ c (TIri 2, 1) <> None /\
     exists c2, pool_run ckey_eqb empty_cache [perform ex_world ex_schema ex_rank ex_job] c1
       [Ok [mk (property_shape 101 10 [CMinCount 1; CNode 2; CEquals 11] []) (TIri 2) TNode (Some (TLit 5));
            mk (property_shape 101 10 [CMinCount 1; CNode 2; CEquals 11] []) (TIri 2) TEquals (Some (TLit 6));
            mk (property_shape 101 10 [CMinCount 1; CNode 2; CEquals 11] []) (TIri 2) TEquals (Some (TLit 5))]] /\
     pool_run ckey_eqb c [perform ex_world ex_schema ex_rank ex_job] c2
       [Ok [mk (property_shape 101 10 [CMinCount 1; CNode 2; CEquals 11] []) (TIri 2) TNode (Some (TLit 5));
            mk (property_shape 101 10 [CMinCount 1; CNode 2; CEquals 11] []) (TIri 2) TEquals (Some (TLit 6));
            mk (property_shape 101 10 [CMinCount 1; CNode 2; CEquals 11] []) (TIri 2) TEquals (Some (TLit 5))]]).
Proof.
  assert (P : proper ex_schema ex_start ex_job).
  { split; [repeat constructor; cbn; intuition discriminate|]. split; [cbn; eauto|]. intros t [<-|[<-|[]]]; (split; [reflexivity|]); auto. }
  split; [exact ex_fine|]. split; [exact ex_plain|]. split; [exact P|]. split; [eexists; apply (conformance_exists ex_world ex_schema ex_rank), (fine_rank _ _ _ _ ex_fine)|].
  exists (snd (run ckey_eqb empty_cache (perform ex_world ex_schema ex_rank ex_job))), (snd (run ckey_eqb empty_cache (perform ex_world ex_schema ex_rank ex_job))).
  split; [|split].
  - apply (history_batch _ _ _ _ empty_cache [ex_job] _ [fst (run ckey_eqb empty_cache (perform ex_world ex_schema ex_rank ex_job))]); [apply history_empty|constructor; [exact P|constructor]|].
    apply run_pool.
  - vm_compute. discriminate.
  - eexists. split; [apply (run_pool ckey_eqb)|]. apply (run_pool ckey_eqb).
Qed.
(** the results of a processor run *)
Definition ex_targets (i : nat) : list term := match i with 0 => [TIri 1; TIri 2] | _ => [] end.
Example C53_met : exists out, process ex_world ex_schema ex_targets 3 empty_cache [[2; 3]; [1]; [0]] (Ok out) /\ length out = 3.
Proof.
  eexists. split.
  - eapply (process_level _ _ _ _ _ _ _ _ _ _ (Ok _)).
    + eapply (pool_run_app ckey_eqb); [apply run_pool|]. apply run_pool.
    + vm_compute. reflexivity.
    + eapply (process_level _ _ _ _ _ _ _ _ _ _ (Ok _)); [apply run_pool|vm_compute; reflexivity|].
      eapply (process_level _ _ _ _ _ _ _ _ _ _ (Ok _)); [apply run_pool|vm_compute; reflexivity|]. apply process_done.
  - vm_compute. reflexivity.
Qed.

(** ** C29 without the restrictions *)
(** a property shape inside a property shape: its results are about other focus nodes, so that they are not recorded *)
Definition forgets (W : world) (sch : schema) (rank : nat -> nat) (j1 j2 : job) : Prop :=
  exists c c1 c2 l0 l1 l2, pool_run ckey_eqb empty_cache [perform W sch rank j1] c [Ok l0] /\
    pool_run ckey_eqb empty_cache [perform W sch rank j2] c1 [Ok l1] /\ pool_run ckey_eqb c [perform W sch rank j2] c2 [Ok l2] /\ l1 <> [] /\ l2 = [].
Lemma forgets_run W sch rank j1 j2 l0 l1 : fst (run ckey_eqb empty_cache (perform W sch rank j1)) = Ok l0 ->
  fst (run ckey_eqb empty_cache (perform W sch rank j2)) = Ok l1 -> l1 <> [] ->
  fst (run ckey_eqb (snd (run ckey_eqb empty_cache (perform W sch rank j1))) (perform W sch rank j2)) = Ok [] -> forgets W sch rank j1 j2.
Proof.
  intros E0 E1 N E2. do 3 eexists. exists l0, l1, []. split; [rewrite <- E0; apply run_pool|]. split; [rewrite <- E1; apply run_pool|].
  split; [rewrite <- E2; apply run_pool|]. split; [exact N|reflexivity].
Qed.
Theorem C29_nested_refuted : exists W sch rank j, layered sch rank /\ rdf_graph (w_graph W) /\ (forall t, object_of W t = Some t) /\
  (forall i s, get_shape sch i = Some s -> s_reifier s = None) /\ forgets W sch rank j j.
Proof.
  exists (plain_world [(TIri 1, 10%N, TIri 2)]), [(0, property_shape 100 10 [] [1]); (1, property_shape 101 11 [CMinCount 1] [])],
    (fun i => match i with 0 => 1 | _ => 0 end), (mkJob None 0 [TIri 1]). split; [|split; [|split; [|split]]].
  - intros i s G j J. destruct i as [|[|i]]; cbn in G; try discriminate; injection G as <-; cbn in J; [|destruct J]. destruct J as [<-|[]]. split; [cbn; eauto|cbn; lia].
  - intros s p o [H|[]]. injection H as <- <- <-. exact Logic.I.
  - apply object_plain.
  - intros i s G. destruct i as [|[|i]]; cbn in G; try discriminate; injection G as <-; reflexivity.
  - eapply forgets_run; [vm_compute; reflexivity|vm_compute; reflexivity|discriminate|vm_compute; reflexivity].
Qed.
Print Assumptions C29_nested_refuted.
(** two spellings of a literal have the same entry *)
Theorem C29_spelling_refuted : exists W sch rank j1 j2, layered sch rank /\ rdf_graph (w_graph W) /\ (forall n, w_key W n <> None) /\
  (forall i s, get_shape sch i = Some s -> s_path s = None /\ s_props s = [] /\ s_reifier s = None) /\ forgets W sch rank j1 j2.
Proof.
  exists (mkWorld [] (fun l => l) (fun n => Some (N.div n 2)) (fun _ _ => None) (fun _ => None) (fun _ _ => false) (fun _ => [])),
    [(0, node_shape 100 [CIn [TLit 4]] [])], (fun _ => 0), (mkJob None 0 [TLit 4]), (mkJob None 0 [TLit 5]). split; [|split; [|split; [|split]]].
  - intros i s G j J. destruct i as [|i]; cbn in G; try discriminate; injection G as <-; destruct J.
  - intros s p o [].
  - discriminate.
  - intros i s G. destruct i as [|i]; cbn in G; try discriminate; injection G as <-; auto.
  - eapply forgets_run; [vm_compute; reflexivity|vm_compute; reflexivity|discriminate|vm_compute; reflexivity].
Qed.
Print Assumptions C29_spelling_refuted.
(** the result for a missing reifier has the shape as its focus node, and is not recorded *)
Theorem C29_reifier_refuted : exists W sch rank j, layered sch rank /\ rdf_graph (w_graph W) /\ (forall t, object_of W t = Some t) /\
  (forall i s, get_shape sch i = Some s -> s_path s = None /\ s_props s = []) /\ forgets W sch rank j j.
Proof.
  exists (plain_world [(TIri 1, 10%N, TIri 2)]),
    [(0, mkShape (TIri 100) None [] [] false 0 [] (Some (mkReifier 10 [1] true))); (1, node_shape 101 [] [])],
    (fun i => match i with 0 => 1 | _ => 0 end), (mkJob None 0 [TIri 1]). split; [|split; [|split; [|split]]].
  - intros i s G j J. destruct i as [|[|i]]; cbn in G; try discriminate; injection G as <-; cbn in J; [|destruct J]. destruct J as [<-|[]]. split; [cbn; eauto|cbn; lia].
  - intros s p o [H|[]]. injection H as <- <- <-. exact Logic.I.
  - apply object_plain.
  - intros i s G. destruct i as [|[|i]]; cbn in G; try discriminate; injection G as <-; auto.
  - eapply forgets_run; [vm_compute; reflexivity|vm_compute; reflexivity|discriminate|vm_compute; reflexivity].
Qed.
Print Assumptions C29_reifier_refuted.
(** the results about a reifier have the reifier as their focus node, and are not recorded *)
Theorem C29_reifier_shape_refuted : exists W sch rank j, layered sch rank /\ rdf_graph (w_graph W) /\ (forall t, object_of W t = Some t) /\
  (forall i s, get_shape sch i = Some s -> s_path s = None /\ s_props s = [] /\ forall rf, s_reifier s = Some rf -> rf_required rf = false) /\
  forgets W sch rank j j.
Proof.
  exists (mkWorld [(TIri 1, 10%N, TIri 2)] (fun l => l) (fun n => Some n) (fun _ _ => None) (fun _ => None) (fun _ _ => false) (fun _ => [TIri 3])),
    [(0, mkShape (TIri 100) None [] [] false 0 [] (Some (mkReifier 10 [1] false))); (1, node_shape 101 [CIn [TIri 4]] [])],
    (fun i => match i with 0 => 1 | _ => 0 end), (mkJob None 0 [TIri 1]). split; [|split; [|split; [|split]]].
  - intros i s G j J. destruct i as [|[|i]]; cbn in G; try discriminate; injection G as <-; cbn in J; [|destruct J]. destruct J as [<-|[]]. split; [cbn; eauto|cbn; lia].
  - intros s p o [H|[]]. injection H as <- <- <-. exact Logic.I.
  - intros [n|n|n]; reflexivity.
  - intros i s G. destruct i as [|[|i]]; cbn in G; try discriminate; injection G as <-; (split; [reflexivity|split; [reflexivity|]]); cbn; [intros rf E; injection E as <-; reflexivity|discriminate].
  - eapply forgets_run; [vm_compute; reflexivity|vm_compute; reflexivity|discriminate|vm_compute; reflexivity].
Qed.
Print Assumptions C29_reifier_shape_refuted.

(** ** C54 without the restrictions: nothing is reported about a node that does not conform *)
Definition misses (W : world) (sch : schema) (rank : nat -> nat) (i : nat) (t : term) : Prop :=
  (exists c, pool_run ckey_eqb empty_cache [perform W sch rank (mkJob None i [t])] c [Ok []]) /\
  forall C, conformance W sch C -> ~ C i t.
(** the path of a property shape cannot be followed from a literal; then its components are not evaluated *)
Theorem C54_literal_refuted : exists W sch rank i t, fine W sch rank (fun j u => j = i /\ u = t) /\ misses W sch rank i t.
Proof.
  exists (plain_world []), [(0, property_shape 100 10 [CMinCount 1] [])], (fun _ => 0), 0, (TLit 5). split; [split|].
  - intros l. apply Permutation_refl.
  - intros i s G j J. destruct i as [|i]; cbn in G; try discriminate; injection G as <-; destruct J.
  - discriminate.
  - intros i t t' _ _. rewrite !object_plain. congruence.
  - intros i t [-> _]. cbn. eauto.
  - intros i s p G P. destruct i as [|i]; cbn in G; try discriminate; injection G as <-. cbn in P. injection P as <-. cbn. auto.
  - intros i s G. destruct i as [|i]; cbn in G; try discriminate; injection G as <-; reflexivity.
  - intros i s t A G H. destruct i as [|i]; cbn in G; try discriminate; injection G as <-. cbn in H.
    destruct H as [(b & p & H)|(p & H)]; repeat (destruct H as [H|H]; try discriminate); destruct H.
  - split; [eexists; apply (run_pool ckey_eqb)|]. intros C HC X. apply (HC 0 _ (TLit 5) eq_refl) in X. destruct X as [X|[X _]]; [discriminate|].
    destruct (X (CMinCount 1) (or_introl eq_refl)) as (l & _ & H & L). destruct l as [|v l]; [cbn in L; lia|]. destruct (H v (or_introl eq_refl)).
Qed.
Print Assumptions C54_literal_refuted.
(** sh:closed in a property shape looks at the focus node, not at the value nodes *)
Theorem C54_closed_refuted : exists W sch rank i t, fine W sch rank (fun j u => j = i /\ u = t) /\ rdf_graph (w_graph W) /\ misses W sch rank i t.
Proof.
  exists (plain_world [(TIri 1, 10%N, TIri 2); (TIri 2, 11%N, TIri 3)]), [(0, mkShape (TIri 100) (Some (PPred 10)) [CClosed true] [] false 0 [10%N] None)],
    (fun _ => 0), 0, (TIri 1). split; [split|split].
  - intros l. apply Permutation_refl.
  - intros i s G j J. destruct i as [|i]; cbn in G; try discriminate; injection G as <-; destruct J.
  - discriminate.
  - intros i t t' _ _. rewrite !object_plain. congruence.
  - intros i t [-> _]. cbn. eauto.
  - intros i s p G P. destruct i as [|i]; cbn in G; try discriminate; injection G as <-. cbn in P. injection P as <-. cbn. auto.
  - intros i s G. destruct i as [|i]; cbn in G; try discriminate; injection G as <-; reflexivity.
  - intros i s t A G H. destruct i as [|i]; cbn in G; try discriminate; injection G as <-. cbn in H.
    destruct H as [(b & p & H)|(p & H)]; repeat (destruct H as [H|H]; try discriminate); destruct H.
  - intros s p o [H|[H|[]]]; injection H as <- <- <-; exact Logic.I.
  - split; [eexists; apply (run_pool ckey_eqb)|]. intros C HC X. apply (HC 0 _ (TIri 1) eq_refl) in X. destruct X as [X|[X _]]; [discriminate|].
    pose proof (X (CClosed true) (or_introl eq_refl)) as Y. cbn in Y. specialize (Y eq_refl (TIri 2) 11%N (TIri 3)).
    destruct Y as [Y|[]]; [auto|auto|discriminate].
Qed.
Print Assumptions C54_closed_refuted.

(** ** C32 without the restrictions *)
(** equals skips a literal focus node *)
Theorem C32_equals_refuted : exists W sch rank i t, fine W sch rank (fun j u => j = i /\ u = t) /\ misses W sch rank i t.
Proof.
  exists (plain_world []), [(0, node_shape 100 [CEquals 10] [])], (fun _ => 0), 0, (TLit 5). split; [split|].
  - intros l. apply Permutation_refl.
  - intros i s G j J. destruct i as [|i]; cbn in G; try discriminate; injection G as <-; destruct J.
  - discriminate.
  - intros i t t' _ _. rewrite !object_plain. congruence.
  - intros i t [-> _]. cbn. eauto.
  - intros i s p G P. destruct i as [|i]; cbn in G; try discriminate; injection G as <-. cbn in P. discriminate.
  - intros i s G. destruct i as [|i]; cbn in G; try discriminate; injection G as <-; reflexivity.
  - intros i s t A G H. destruct i as [|i]; cbn in G; try discriminate; injection G as <-. cbn in H.
    destruct H as [(b & p & H)|(p & H)]; repeat (destruct H as [H|H]; try discriminate); destruct H.
  - split; [eexists; apply (run_pool ckey_eqb)|]. intros C HC X. apply (HC 0 _ (TLit 5) eq_refl) in X. destruct X as [X|[X _]]; [discriminate|].
    destruct (proj1 (X (CEquals 10) (or_introl eq_refl) (TLit 5)) eq_refl).
Qed.
Print Assumptions C32_equals_refuted.
(** disjoint panics at a literal focus node, and lessThan makes the whole validation fail, although nothing is violated *)
Lemma all_runs {A} (p : prog ckey (list result) A) (r0 : A) : safe (fun _ _ => False) (fun _ => False) p (fun r => r = r0) ->
  forall c r, pool_run ckey_eqb empty_cache [p] c [r] -> r = r0.
Proof.
  intros S c r R. destruct (pool_run_safe (fun _ _ => False) ckey_eqb ckey_eqb_eq ckey_eqb_refl empty_cache [p] c [r] R [fun r => r = r0]) as [_ K].
  - intros k v X. discriminate.
  - constructor; [|constructor]. apply (safe_mono _ p (fun _ => False) _ (fun r => r = r0) _); [intros k []|auto|exact S].
  - inversion K; assumption.
Qed.
Ltac one_order := let l := fresh "l" in let P := fresh "P" in intros l P; apply Permutation_length_1_inv in P; subst l.
Theorem C32_literal_refuted : exists W sch rank t, (forall C, conformance W sch C -> C 0 t /\ C 1 t) /\
  (forall c r, pool_run ckey_eqb empty_cache [perform W sch rank (mkJob None 0 [t])] c [r] -> r = Panic) /\
  (forall c r, pool_run ckey_eqb empty_cache [perform W sch rank (mkJob None 1 [t])] c [r] -> r = Err).
Proof.
  exists (plain_world []), [(0, node_shape 100 [CDisjoint 10] []); (1, node_shape 101 [CLess false 10] [])], (fun _ => 0), (TLit 5). split; [|split].
  - intros C HC. split; eapply HC; try reflexivity; right; (split; [|intros j v []]); intros c [<-|[]]; cbn; intros; tauto.
  - apply all_runs. cbn. one_order. cbn. split; [intros v []|]. intros _. one_order. cbn. one_order. cbn. one_order. reflexivity.
  - apply all_runs. cbn. one_order. cbn. split; [intros v []|]. intros _. one_order. cbn. one_order. reflexivity.
Qed.
Print Assumptions C32_literal_refuted.

(** ** C31: referenced shapes whose evaluation fails *)
(** [out j]: what the validation of the shape [j] answers for the value node *)
Section Failing.
  Variable W : world.
  Variable sch : schema.
  Variable s : shape.
  Variables t o v : term.
  Variable out : nat -> res (list result).
  Hypothesis O : object_of W t = Some o.
  Hypothesis T : forall j, out j = Err \/ exists l, out j = Ok l.
  Definition known (l : list nat) : Prop := forall j, In j l -> exists s', get_shape sch j = Some s'.
  Definition answers (c : comp) (r : res (list result)) : Prop :=
    forall c0 c', pool_run ckey_eqb empty_cache [component W sch (fun j _ => Ret (out j)) s c [(t, [v])]] c0 [c'] -> c' = r.

  Lemma answers_loop {A} (loop : term -> M A) (f : A -> bool) tg a : (safe (fun _ _ => False) (fun _ => False) (loop v) (fun r => r = Ok a)) ->
    safe (fun _ _ => False) (fun _ => False) (on_values W (fun o v => rbind (loop v) (fun b => when W s tg o v (f b))) [(t, [v])])
      (fun r => r = Ok (if f a then [mk s o tg (object_of W v)] else [])).
  Proof.
    intro H. one_order. cbn [collect fst snd]. rewrite O. unfold rbind at 1. eapply safe_bind with (Q := fun r => r = Ok (if f a then [mk s o tg (object_of W v)] else [])).
    - one_order. cbn [collect]. unfold rbind at 1. eapply safe_bind with (Q := fun r => r = Ok (if f a then [mk s o tg (object_of W v)] else [])).
      + unfold rbind. eapply safe_bind; [exact H|]. cbn beta. intros P r ->. reflexivity.
      + intros P r ->. cbn. rewrite app_nil_r. reflexivity.
    - intros P r ->. cbn. rewrite app_nil_r. reflexivity.
  Qed.

  Definition conforming (j : nat) : bool := match out j with Ok [] => true | _ => false end.
  Lemma conforming_ok j : conforming j = true <-> out j = Ok [].
  Proof. unfold conforming. destruct (out j) as [[|r l]| | |]; split; congruence. Qed.
  Lemma and_answers : forall l, known l -> safe (fun _ _ => False) (fun _ => False) (and_loop sch (fun j _ => Ret (out j)) l v) (fun r => r = Ok (forallb conforming l)).
  Proof.
    induction l as [|j l IH]; intro Sh; cbn [and_loop forallb]; [reflexivity|]. destruct (Sh j (or_introl eq_refl)) as [s' E]. rewrite E. unfold conforming at 1. cbn.
    specialize (IH (fun k K => Sh k (or_intror K))).
    destruct (T j) as [X|[[|r rs] X]]; rewrite X; cbn; [reflexivity|exact IH|reflexivity].
  Qed.
  Lemma valid_answers j P : known [j] -> safe (fun _ _ => False) P (valid sch (fun j _ => Ret (out j)) j v) (fun r => r = Ok (conforming j)).
  Proof.
    intro Sh. unfold valid. destruct (Sh j (or_introl eq_refl)) as [s' E]. rewrite E. unfold conforming. cbn. destruct (T j) as [X|[[|r rs] X]]; rewrite X; reflexivity.
  Qed.
  Lemma xone_answers : forall l n, known l -> safe (fun _ _ => False) (fun _ => False) (xone_loop sch (fun j _ => Ret (out j)) l v n) (fun r => r = Ok (n + length (filter conforming l))).
  Proof.
    induction l as [|j l IH]; intros n Sh; cbn [xone_loop filter]; [cbn; rewrite Nat.add_0_r; reflexivity|]. unfold rbind.
    assert (Sh' : known l) by (intros k K; apply Sh; right; exact K).
    eapply safe_bind; [apply valid_answers; intros k [<-|[]]; apply Sh; left; reflexivity|]. cbn beta. intros P r ->. apply safe_any. destruct (conforming j); cbn [length]; [rewrite <- Nat.add_succ_comm|]; apply IH, Sh'.
  Qed.

  (** a shape whose evaluation fails counts as violated, for and, xone and not *)
  Theorem C31_failing l i : known (i :: l) ->
    (answers (CAnd l) (Ok []) \/ answers (CAnd l) (Ok [mk s o TAnd (object_of W v)])) /\
    (answers (CAnd l) (Ok []) <-> forall j, In j l -> out j = Ok []) /\
    (answers (CXone l) (Ok []) <-> exists l1 j l2, l = l1 ++ j :: l2 /\ out j = Ok [] /\ forall k, In k (l1 ++ l2) -> out k <> Ok []) /\
    (answers (CNot i) (Ok []) <-> out i <> Ok []).
  Proof.
    intro Sh. assert (Sl : known l) by (intros k K; apply Sh; right; exact K). assert (Si : known [i]) by (intros k [<-|[]]; apply Sh; left; reflexivity).
    assert (U : forall c r r', answers c r -> answers c r' -> r = r').
    { intros c r r' A A'. pose proof (run_pool ckey_eqb (component W sch (fun j _ => Ret (out j)) s c [(t, [v])]) empty_cache) as R. rewrite <- (A _ _ R). apply (A' _ _ R). }
    assert (A : answers (CAnd l) (Ok (if negb (forallb conforming l) then [mk s o TAnd (object_of W v)] else []))).
    { intros c0 c' R. apply (all_runs _ _ (answers_loop (and_loop sch (fun j _ => Ret (out j)) l) negb TAnd _ (and_answers l Sl)) c0 c' R). }
    assert (X : answers (CXone l) (Ok (if negb (Nat.eqb (length (filter conforming l)) 1) then [mk s o TXone (object_of W v)] else []))).
    { intros c0 c' R. apply (all_runs _ _ (answers_loop (fun v => xone_loop sch (fun j _ => Ret (out j)) l v 0) (fun n => negb (Nat.eqb n 1)) TXone _ (xone_answers l 0 Sl)) c0 c' R). }
    assert (N : answers (CNot i) (Ok (if conforming i then [mk s o TNot (object_of W v)] else []))).
    { intros c0 c' R. apply (all_runs _ _ (answers_loop (valid sch (fun j _ => Ret (out j)) i) (fun b => b) TNot _ (valid_answers i (fun _ => False) Si)) c0 c' R). }
    split; [|split; [|split]].
    - destruct (forallb conforming l); [left|right]; exact A.
    - split.
      + intros H j J. apply conforming_ok. pose proof (U _ _ _ A H) as E. destruct (forallb conforming l) eqn:Y; [|discriminate]. rewrite forallb_forall in Y. apply Y, J.
      + intro H. replace (forallb conforming l) with true in A; [exact A|]. symmetry. apply forallb_forall. intros j J. apply conforming_ok, H, J.
    - assert (K : forall k, conforming k = false <-> out k <> Ok []) by (intro k; rewrite <- conforming_ok; destruct (conforming k); split; congruence).
      assert (Q : length (filter conforming l) = 1 <-> exists l1 j l2, l = l1 ++ j :: l2 /\ out j = Ok [] /\ forall k, In k (l1 ++ l2) -> out k <> Ok []).
      { rewrite length_filter_one. split; intros (l1 & j & l2 & E & H1 & H2); exists l1, j, l2; (split; [exact E|]); (split; [apply conforming_ok, H1|]); intros k Hk; apply K, H2, Hk. }
      rewrite <- Q. destruct (Nat.eqb (length (filter conforming l)) 1) eqn:Y; cbn [negb] in X.
      + apply Nat.eqb_eq in Y. split; auto.
      + apply Nat.eqb_neq in Y. split; [|congruence]. intro H. pose proof (U _ _ _ X H). discriminate.
    - rewrite <- conforming_ok. destruct (conforming i); split; try congruence; [|auto]. intro H. pose proof (U _ _ _ N H). discriminate.
  Qed.
End Failing.
Print Assumptions C31_failing.
Example C31_failing_met : answers (plain_world []) [(0, node_shape 100 [] [])] (node_shape 100 [] []) (TIri 1) (TIri 1) (fun _ => Err) (CAnd [0]) (Ok [mk (node_shape 100 [] []) (TIri 1) TAnd (Some (TIri 1))]).
Proof. intros c0 c' R. revert R. apply all_runs. cbn. one_order. cbn. one_order. reflexivity. Qed.
(** or, however, fails as a whole, even when another of the shapes is satisfied *)
Theorem C31_or_refuted : exists W sch rank t, (forall C, conformance W sch C -> C 0 t) /\
  (forall c r, pool_run ckey_eqb empty_cache [perform W sch rank (mkJob None 0 [t])] c [r] -> r = Err).
Proof.
  exists (plain_world []), [(0, node_shape 100 [COr [1; 2]] []); (1, node_shape 101 [CLess false 10] []); (2, node_shape 102 [] [])],
    (fun i => match i with 0 => 1 | _ => 0 end), (TLit 5). split.
  - intros C HC. assert (H : C 2 (TLit 5)) by (eapply HC; [reflexivity|]; right; split; [intros c []|intros k v []]).
    eapply HC; [reflexivity|]. right. split; [|intros k v []]. intros c [<-|[]]. cbn. intros v ->. exists 2. auto.
  - apply all_runs. cbn. one_order. cbn. split; [intros v []|]. intros _. one_order. cbn. one_order. cbn. one_order. cbn. one_order. cbn. split; [intros v []|]. intros _. one_order. cbn. one_order. reflexivity.
Qed.
Print Assumptions C31_or_refuted.
(** and the negation of a shape that cannot be evaluated is satisfied, although the node conforms to the shape *)
Theorem C31_not_refuted : exists W sch rank t, misses W sch rank 0 t.
Proof.
  exists (plain_world []), [(0, node_shape 100 [CNot 1] []); (1, node_shape 101 [CLess false 10] [])], (fun i => match i with 0 => 1 | _ => 0 end), (TLit 5).
  split; [eexists; apply (run_pool ckey_eqb)|]. intros C HC X. apply (HC 0 _ (TLit 5) eq_refl) in X. destruct X as [X|[X _]]; [discriminate|].
  apply (X (CNot 1) (or_introl eq_refl) (TLit 5) eq_refl). eapply HC; [reflexivity|]. right. split; [|intros k v []]. intros c [<-|[]]. cbn. intros; tauto.
Qed.
Print Assumptions C31_not_refuted.
