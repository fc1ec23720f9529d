(** The engine on schemas with inheritance: verdicts. *)
From Coq Require Import List Arith Bool Lia Permutation Cantor ConstructiveEpsilon.
Import ListNotations.
From Verif Require Import RbeModel RbeSpec PendingModel PendingSpec PendingLemmas TableModel TableSpec TableLemmas
  GraphModel GraphSpec GraphLemmas ProveModel ProveSpec ProveLemmas ProveTotal ProveSem ProveHist EngineModel EngineSpec EngineShape EngineLemmas EngineFinal
  StepModel ClassModel ExtModel XtdModel XtdSpec XtdSel XtdMain XtdSingle XeSpec XeLemmas.

Lemma reach_last (R : nat -> nat -> Prop) a c : reach R a c -> a = c \/ exists b, reach R a b /\ R b c.
Proof.
  induction 1 as [a|a b c U Q IH]; [left; reflexivity|right]. destruct IH as [->|(x & X & Y)]; [exists a; split; [constructor|exact U]|].
  exists x. split; [|exact Y]. apply reach_step with (b := b); assumption.
Qed.

Section Final.
  Variable eval : nat -> nat -> bool.
  Variable external : nat -> nat -> bool.
  Variable default_pred : nat.
  Variable border : list (option nat * table) -> list (option nat * table).
  Variable corder : list class -> list class.
  Variable check_extends : nat -> nat -> shape -> (nat -> bool) -> bool.
  Variable sch : schema.
  Variable g : rdf.
  Notation dep := (engine_dep default_pred sch g).
  Notation missing := (engine_missing sch).
  Notation abst := (engine_abstract sch).
  Notation desc := (engine_desc sch).
  Notation check := (engine_check eval external check_extends sch g).
  Notation flat := EngineFinal.flat.
  Hypothesis H_border : forall l, Permutation (border l) l.
  Hypothesis H_corder : forall l, Permutation l (corder l).
  Hypothesis H_g : NoDup g.
  Hypothesis H_plain : plain sch.
  Hypothesis H_exact : exact sch.
  Hypothesis H_dec : all_decided sch.
  Hypothesis H_ans : answers eval external border corder sch g check_extends.

  Notation meets := (holds eval external (shape_meaning eval external sch g)).
  Notation has := (has_label eval external sch g).

  Lemma extends_decided l n s T : find sch l = Some (EShape s) -> s_extends s <> [] ->
    (check_extends l n s (flat T) = true <-> extends_holds eval external sch g T n s).
  Proof.
    intros F X. destruct (H_ans l n s (flat T) F X) as (f & A). destruct (H_dec l s F X) as [(rank & p & G & O & W & P & TW)|(I & PE & AP)].
    - apply (proj1 (extends_right sch rank G O eval external border corder g T H_g H_border H_corder s W l n p P TW) f _ A).
    - destruct (plain_right eval external border corder sch g T H_g H_border H_corder I l s PE n) as (_ & Q & _).
      exact (Q AP f _ A).
  Qed.
  Lemma extends_total l n s T : find sch l = Some (EShape s) -> s_extends s <> [] ->
    exists f b, check_shape_extends eval external border corder sch g f l n s (flat T) = Some b.
  Proof.
    intros F X. destruct (H_dec l s F X) as [(rank & p & G & O & W & P & TW)|(I & PE & AP)].
    - destruct (proj2 (extends_right sch rank G O eval external border corder g T H_g H_border H_corder s W l n p P TW)) as (f & Q).
      destruct (Q f (Nat.le_refl f)) as (b & E). exists f, b. exact E.
    - destruct (plain_right eval external border corder sch g T H_g H_border H_corder I l s PE n) as (_ & _ & f & Q).
      destruct (Q f (Nat.le_refl f)) as (b & E). exists f, b. exact E.
  Qed.
  Lemma extends_point l n s t t' : find sch l = Some (EShape s) -> s_extends s <> [] -> (forall k, t k = t' k) ->
    check_extends l n s t = check_extends l n s t'.
  Proof.
    intros F X E. set (T := fun n l => t (key n l)).
    assert (E1 : forall k, t k = flat T k) by (intro k; unfold flat, T; rewrite key_eta; reflexivity).
    assert (E2 : forall k, t' k = flat T k) by (intro k; rewrite <- E1; symmetry; apply E).
    assert (D : forall u, (forall k, u k = flat T k) -> (check_extends l n s u = true <-> extends_holds eval external sch g T n s)).
    { intros u Eu. destruct (H_ans l n s u F X) as (f & A). rewrite (extends_same eval external border corder sch g u (flat T) Eu) in A.
      destruct (H_dec l s F X) as [(rank & p & G & O & W & P & TW)|(I & PE & AP)].
      - apply (proj1 (extends_right sch rank G O eval external border corder g T H_g H_border H_corder s W l n p P TW) f _ A).
      - destruct (plain_right eval external border corder sch g T H_g H_border H_corder I l s PE n) as (_ & Q & _). exact (Q AP f _ A). }
    pose proof (D t E1) as A. pose proof (D t' E2) as B. destruct (check_extends l n s t), (check_extends l n s t'); try reflexivity.
    - symmetry. apply B, A. reflexivity.
    - apply A, B. reflexivity.
  Qed.

  Lemma check_point k t t' : (forall j, t j = t' j) -> check k t = check k t'.
  Proof.
    intro E. unfold engine_check. destruct (find sch (label_of k)) as [e|] eqn:F; [|reflexivity].
    destruct e as [es|es|i|c|s| |i|]; cbn [check_node_shape_expr]; try reflexivity.
    - apply existsb_same. intro i. apply E.
    - apply forallb_same. intro i. apply E.
    - rewrite E. reflexivity.
    - destruct (s_extends s) as [|p ps] eqn:X; [apply shape_same; exact E|]. apply extends_point; [exact F|rewrite X; discriminate|exact E].
    - apply E.
  Qed.

  Lemma check_meets T k e : find sch (label_of k) = Some e ->
    (check k (flat T) = true <-> meets T (node_of k) (label_of k) e).
  Proof.
    intro F. unfold engine_check. rewrite F. destruct e as [l|l|i|c|s| |i|]; cbn [check_node_shape_expr holds].
    - rewrite existsb_exists. unfold flat. split; intros (i & I & H); exists i; (split; [exact I|]); rewrite key_node, key_label in *; exact H.
    - rewrite forallb_forall. unfold flat. split; intros H i I; specialize (H i I); rewrite key_node, key_label in *; exact H.
    - unfold flat. rewrite key_node, key_label. apply negb_true_iff.
    - pose proof (cond_matches_spec eval c (node_of k)) as X. destruct (cond_matches eval c (node_of k)); cbn [is_some].
      + split; [intros _; apply X|reflexivity].
      + split; [discriminate|intro S; destruct (X S)].
    - unfold shape_meaning. destruct (s_extends s) as [|p ps] eqn:X.
      + apply check_node_shape_spec; [exact H_g|exact (H_exact _ s F)].
      + apply extends_decided; [exact F|rewrite X; discriminate].
    - reflexivity.
    - unfold flat. rewrite key_node, key_label. reflexivity.
    - split; [intros _; exact I|reflexivity].
  Qed.

  Lemma justified_has T k : justified abst desc check (flat T) k <-> has T (node_of k) (label_of k).
  Proof.
    unfold justified, has_label. apply or_iff_compat_r with (P := exists d, In d (desc k) /\ flat T d = true) || split.
    - intros [[A C]|(d & D & Td)].
      + left. split; [intro I; unfold engine_abstract in A; apply mem_not_In in A; exact (A I)|].
        destruct (find sch (label_of k)) as [e|] eqn:F; [|unfold engine_check in C; rewrite F in C; discriminate].
        exists e. split; [reflexivity|]. apply (check_meets T k e F). exact C.
      + right. apply desc_In in D. destruct D as (j & -> & N & R). exists j. split; [split; assumption|].
        unfold flat in Td. rewrite key_node, key_label in Td. exact Td.
    - intros [[A (e & F & M)]|(j & [N R] & Tj)].
      + left. split; [unfold engine_abstract; apply mem_not_In; exact A|]. apply (check_meets T k e F). exact M.
      + right. exists (key (node_of k) j). split; [apply desc_In; exists j; auto|]. unfold flat. rewrite key_node, key_label. exact Tj.
  Qed.

  Variable str : nat -> nat.
  Hypothesis H_str : strata_below sch str.
  Definition lower (k j : nat) : Prop := str (label_of j) < str (label_of k).

  Lemma below_monotone : monotone_but dep check lower.
  Proof.
    intros k t t' D H. set (T := fun n l => t (key n l)). set (T' := fun n l => t' (key n l)).
    assert (E : forall j, t j = flat T j) by (intro j; unfold flat, T; rewrite key_eta; reflexivity).
    assert (E' : forall j, t' j = flat T' j) by (intro j; unfold flat, T'; rewrite key_eta; reflexivity).
    rewrite (check_point k t (flat T) E) in H. rewrite (check_point k t' (flat T') E').
    destruct (find sch (label_of k)) as [e|] eqn:F; [|unfold engine_check in H; rewrite F in H; discriminate].
    apply (check_meets T k e F) in H. apply (check_meets T' k e F).
    assert (DD : forall i, In i (direct_references e) -> T (node_of k) i = T' (node_of k) i \/
                  ~ str i < str (label_of k) /\ (T (node_of k) i = true -> T' (node_of k) i = true)).
    { intros i I. destruct (D (key (node_of k) i) (In_dep_direct default_pred sch g k e i F I)) as [Y|Y]; [left; exact Y|right].
      unfold lower in Y. rewrite key_label in Y. exact Y. }
    assert (DU : forall i, In i (direct_references e) -> T (node_of k) i = true -> T' (node_of k) i = true).
    { intros i I X. destruct (DD i I) as [Y|[_ Y]]; [congruence|exact (Y X)]. }
    assert (ALL : forall v r, In (key v r) (dep (key (node_of k) (label_of k))) -> T v r = T' v r \/ ~ str r < str (label_of k) /\ (T v r = true -> T' v r = true)).
    { intros v r I. rewrite key_eta in I. destruct (D (key v r) I) as [Y|Y]; [left; exact Y|right]. unfold lower in Y. rewrite key_label in Y. exact Y. }
    destruct e as [es|es|i|c|s| |i|]; cbn [holds direct_references] in *.
    - destruct H as (i & I & H). exists i. split; [exact I|exact (DU i I H)].
    - intros i I. exact (DU i I (H i I)).
    - destruct (DD i (or_introl eq_refl)) as [Y|[Y _]]; [congruence|]. destruct Y. apply (proj2 (proj1 H_str)). exact F.
    - exact H.
    - unfold shape_meaning in *. destruct (s_extends s) as [|p ps] eqn:X.
      + apply (variant_up eval default_pred sch g str H_plain (node_of k) (label_of k) (EShape s) F T T' ALL (label_of k) s); [constructor|exact F|exact H].
      + exact (extends_up eval external default_pred sch g str H_plain (proj1 H_str) (node_of k) (label_of k) (EShape s) F T T' ALL s F H).
    - exact H.
    - exact (DU i (or_introl eq_refl) H).
    - exact H.
  Qed.
  Lemma below_local : local dep check.
  Proof.
    intros k T T' E. destruct (check k T) eqn:A, (check k T') eqn:B; try reflexivity; exfalso.
    - assert (X : check k T' = true); [|congruence]. apply (below_monotone k T T'); [|exact A]. intros j J. left. exact (E j J).
    - assert (X : check k T = true); [|congruence]. apply (below_monotone k T' T); [|exact B]. intros j J. left. symmetry. exact (E j J).
  Qed.

  Variable nodes : list nat.
  Hypothesis H_nodes : covers nodes g.

  Lemma uses_str i j : reach (label_uses sch) i j -> str j <= str i.
  Proof. induction 1 as [a|a b c U R IH]; [auto|]. pose proof (proj1 (proj1 H_str) a b U). lia. Qed.
  Lemma below_str d l : reach (edge (inherit sch)) d l -> str d <= str l.
  Proof. induction 1 as [a|a b c U R IH]; [auto|]. pose proof (proj2 H_str a b U). lia. Qed.
  Lemma below_stratify all : stratifies dep desc all lower (fun k => str (label_of k)).
  Proof.
    split.
    - intros k j _ [D|D]; [exact (uses_str _ _ (dep_label default_pred sch g k j D))|].
      apply desc_In in D. destruct D as (i & -> & _ & R). rewrite key_label. exact (below_str _ _ R).
    - intros k j _ _ N. exact N.
  Qed.
  Lemma node_pair ml k : In k (pairs sch g nodes ml) -> In (node_of k) nodes.
  Proof. exact (EngineFinal.pair_node sch g nodes H_nodes ml k). Qed.

  (** agreement of two typings of pairs on what is needed *)
  Lemma justified_agree all T T' k : closed dep desc all -> In k all -> (forall i, In i all -> T i = T' i) ->
    justified abst desc check T k -> justified abst desc check T' k.
  Proof.
    intros CL K E [[A C]|(d & D & Td)].
    - left. split; [exact A|]. rewrite <- C. apply below_local. intros j J. symmetry. apply E. apply (CL k j K). left. exact J.
    - right. exists d. split; [exact D|]. rewrite <- (E d); [exact Td|]. apply (CL k d K). right. exact D.
  Qed.

  Lemma below_V V ml : stratified_below eval external sch g nodes str V ->
    stratified_typing abst desc check (pairs sch g nodes ml) (fun k => str (label_of k)) (flat V).
  Proof.
    intros H_V k K. set (all := pairs sch g nodes ml) in *. assert (CL : closed dep desc all) by apply pairs_closed.
    unfold flat at 1. rewrite (H_V (node_of k) (label_of k) (node_pair ml k K)). split.
    - intros (T & Tk & L & J). exists (flat T). split; [exact Tk|]. split.
      + intros i Ia Li. unfold flat. apply L; [exact (node_pair ml i Ia)|exact Li].
      + intros j Ja Sj Tj. apply justified_has. apply J; [exact (node_pair ml j Ja)|exact Sj|exact Tj].
    - intros (T & Tk & L & J). set (n0 := str (label_of k)) in *.
      set (T' := fun m j => if mem (key m j) all then T (key m j) else if str j <? n0 then V m j else false).
      exists T'. split; [|split].
      + unfold T'. rewrite key_eta. rewrite (proj2 (mem_In k all) K). exact Tk.
      + intros m j Nm Lj. unfold T'. fold n0 in Lj. destruct (mem (key m j) all) eqn:M.
        * apply mem_In in M. rewrite (L (key m j) M); [unfold flat; rewrite key_node, key_label; reflexivity|].
          rewrite key_label. exact Lj.
        * rewrite (proj2 (Nat.ltb_lt _ _) Lj). reflexivity.
      + intros m j Nm Ej Tj. fold n0 in Ej. unfold T' in Tj. destruct (mem (key m j) all) eqn:M; [|rewrite Ej, Nat.ltb_irrefl in Tj; discriminate].
        apply mem_In in M. pose proof (J (key m j) M) as Q. rewrite key_label in Q. specialize (Q Ej Tj).
        pose proof (justified_has T' (key m j)) as X. rewrite key_node, key_label in X. apply X.
        refine (justified_agree all T (flat T') (key m j) CL M _ Q). intros i Ia. unfold flat, T'. rewrite key_eta.
        rewrite (proj2 (mem_In i all) Ia). reflexivity.
  Qed.

  Theorem below_exists : exists V, stratified_below eval external sch g nodes str V.
  Proof.
    set (all := pairs sch g nodes []). assert (CL : closed dep desc all) by apply pairs_closed.
    destruct (stratified_typing_exists dep abst desc check lower (fun k => str (label_of k)) all CL below_monotone (below_stratify all)) as (V' & HV).
    exists (fun n l => V' (key n l) && mem (key n l) all). intros n l Nn.
    assert (IN : forall m j, In m nodes -> In j (labels sch) -> In (key m j) all).
    { intros m j Nm Lj. apply pairs_In. rewrite key_node, key_label. split; [apply in_app_iff; left; exact Nm|exact Lj]. }
    destruct (mem (key n l) all) eqn:M.
    - apply mem_In in M. rewrite andb_true_r. rewrite (HV (key n l) M). rewrite key_label. split.
      + intros (T & Tk & L & J). set (T' := fun m j => T (key m j) && mem (key m j) all). exists T'.
        split; [unfold T'; rewrite Tk; apply mem_In; exact M|]. split.
        * intros m j Nm Lj. unfold T'. destruct (mem (key m j) all) eqn:Q; [|rewrite !andb_false_r; reflexivity].
          apply mem_In in Q. rewrite (L (key m j) Q); [reflexivity|]. rewrite key_label. exact Lj.
        * intros m j Nm Ej Tj. unfold T' in Tj. apply andb_true_iff in Tj. destruct Tj as [Tj Q]. apply mem_In in Q.
          pose proof (J (key m j) Q) as X. rewrite key_label in X. specialize (X Ej Tj).
          pose proof (justified_has T' (key m j)) as Y. rewrite key_node, key_label in Y. apply Y.
          refine (justified_agree all T (flat T') (key m j) CL Q _ X). intros i Ia. unfold flat, T'. rewrite key_eta.
          rewrite (proj2 (mem_In i all) Ia). symmetry. apply andb_true_r.
      + intros (T & Tk & L & J). exists (flat T). split; [unfold flat; rewrite key_node, key_label; exact Tk|]. split.
        * intros i Ia Li. unfold flat. rewrite (L (node_of i) (label_of i) (node_pair [] i Ia) Li).
          rewrite key_eta, (proj2 (mem_In i all) Ia). apply andb_true_r.
        * intros j Ja Sj Tj. apply justified_has. apply J; [exact (node_pair [] j Ja)|exact Sj|exact Tj].
    - rewrite andb_false_r. split; [discriminate|]. intros (T & Tk & _ & J). apply mem_not_In in M. destruct M.
      destruct (J n l Nn eq_refl Tk) as [(_ & e & F & _)|(d & [N R] & _)].
      + apply IN; [exact Nn|exact (find_label sch l e F)].
      + apply IN; [exact Nn|]. unfold labels. apply in_app_iff. right. apply in_app_iff. right. apply reach_last in R.
        destruct R as [->|(b & _ & E)]; [destruct (N eq_refl)|]. apply nodes_In. exists b. right. exact E.
  Qed.

  Theorem below_right V ord fuel pending r s' n l b : orders ord ->
    stratified_below eval external sch g nodes str V ->
    (forall k, In k pending -> In (node_of k) nodes) ->
    engine_run eval external default_pred check_extends sch g ord fuel pending fresh = (Some r, s') ->
    In (key n l, b) r -> b = V n l.
  Proof.
    intros O H_V NP H I.
    set (all := pairs sch g nodes (map label_of pending)).
    assert (P : forall k, In k pending -> In k all).
    { intros k K. apply pairs_In. split; apply in_app_iff; left; [exact (NP k K)|apply in_map; exact K]. }
    assert (S0 : sound all (flat V) fresh) by (intros k c X; discriminate).
    assert (CL : closed dep desc all) by apply pairs_closed.
    pose proof (below_V V (map label_of pending) H_V) as HV. fold all in HV. clearbody all.
    assert (G : forall k c, In (k, c) r -> c = flat V k).
    { clear I n l b NP. unfold engine_run in H. revert s' r H. generalize dependent fresh.
      induction pending as [|k l IH]; intros s S0 s' r H k' c I; cbn [validate_pending] in H.
      - injection H as <- <-. destruct I.
      - destruct (prove dep missing abst desc check ord fuel k [] s) as [o s1] eqn:E. destruct o as [| |b]; try discriminate.
        assert (K : In k all) by (apply P; left; reflexivity).
        destruct (prove_good dep missing abst desc check ord lower (fun k => str (label_of k)) all O CL below_monotone
                    (below_stratify all) (flat V) HV below_local fuel k [] s (Verdict b) s1 K) as [S1 _]; [intros h []|exact S0|exact E|].
        pose proof (prove_exact dep missing abst desc check ord lower (fun k => str (label_of k)) all O CL below_monotone
                    (below_stratify all) (flat V) HV below_local fuel k s b s1 K S0 E) as X.
        destruct (validate_pending dep missing abst desc check ord fuel l s1) as [[r1|] s2] eqn:R; [|discriminate].
        injection H as <- <-. destruct I as [I|I]; [injection I as <- <-; exact X|].
        apply (IH (fun k K => P k (or_intror K)) s1 S1 s2 r1 R k' c I). }
    rewrite (G (key n l) b I). unfold flat. rewrite key_node, key_label. reflexivity.
  Qed.

  (** every typing restricted to the nodes *)
  Lemma has_nodes T m j : In m nodes -> has T m j -> has (fun m j => T m j && mem m nodes) m j.
  Proof.
    intros Nm H. pose proof (justified_has T (key m j)) as X. pose proof (justified_has (fun m j => T m j && mem m nodes) (key m j)) as Y.
    rewrite key_node, key_label in X, Y. apply Y. apply X in H. revert H. apply (justified_agree (pairs sch g nodes [j])).
    - apply pairs_closed.
    - apply pairs_In. rewrite key_node, key_label. split; apply in_app_iff; left; [exact Nm|left; reflexivity].
    - intros i Ia. unfold flat. rewrite (proj2 (mem_In _ _) (node_pair [j] i Ia)). symmetry. apply andb_true_r.
  Qed.

  Theorem below_fixpoint V n l : stratified_below eval external sch g nodes str V -> In n nodes -> (V n l = true <-> has V n l).
  Proof.
    intros H_V Nn. set (all := pairs sch g nodes [l]). assert (CL : closed dep desc all) by apply pairs_closed.
    pose proof (below_V V [l] H_V) as HV. fold all in HV.
    assert (K : In (key n l) all).
    { apply pairs_In. rewrite key_node, key_label. split; apply in_app_iff; left; [exact Nn|left; reflexivity]. }
    pose proof (V_justified dep abst desc check lower (fun k => str (label_of k)) all CL below_monotone (below_stratify all) (flat V) HV (key n l) K) as A.
    pose proof (justified_V dep abst desc check lower (fun k => str (label_of k)) all CL below_monotone (below_stratify all) (flat V) HV (key n l) K) as B.
    pose proof (justified_has V (key n l)) as X. unfold flat at 1 in A. unfold flat at 2 in B. rewrite key_node, key_label in *. split.
    - intro E. apply X, A, E.
    - intro E. apply B, X, E.
  Qed.
End Final.

Lemma below_strata sch : tables_built sch -> stratified_schema_below sch -> exists str, strata_below sch str.
Proof.
  intros B S.
  set (succ := fun i => match find sch i with Some e => expr_labels e | None => [] end ++ preds (inherit sch) i).
  assert (U : forall i j, In j (succ i) <-> uses_below sch i j).
  { intros i j. unfold succ. rewrite in_app_iff, preds_In. unfold uses_below. apply or_iff_compat_r. unfold label_uses.
    destruct (find sch i) as [e|] eqn:F.
    2:{ split; [intros []|intros (e & X & _); discriminate]. }
    split.
    - intro H. exists e. split; [reflexivity|]. destruct e; cbn [expr_labels] in H; try exact H; try (destruct H as [<-|[]]; reflexivity).
      apply in_app_iff in H. destruct H as [H|H]; [left; exact H|right]. apply in_flat_map in H. destruct H as (cd & H & R).
      apply In_nth_error in H. destruct H as (c & H). destruct (components_spec (fun _ _ => true) _ (B i s F)) as (L & _).
      destruct (nth_error (t_ckey (s_table s)) c) as [k|] eqn:K.
      + exists c, k, cd, 0, 0. split; [split; assumption|]. clear -R. induction cd as [x|r|cs IH] using mcond_ind'.
        * destruct R.
        * destruct R as [<-|[]]. split; reflexivity.
        * cbn [cond_refs] in R. cbn [TableSpec.needs]. apply in_flat_map in R. destruct R as (c & Hc & R). rewrite Forall_forall in IH.
          specialize (IH c Hc R). clear R. induction cs as [|d ds IHd]; [destruct Hc|]. cbn [fold_right]. destruct Hc as [->|Hc]; [left; exact IH|right; apply IHd; exact Hc].
      + exfalso. apply nth_error_None in K. assert (c < length (t_cond (s_table s))) by (apply nth_error_Some; congruence). lia.
    - intros (e' & X & H). injection X as <-. destruct e; cbn [expr_labels]; try exact H; try (left; congruence); try (destruct H; fail).
      apply in_app_iff. destruct H as [H|(c & k & cd & v & v' & [C1 C2] & N)]; [left; exact H|right].
      apply in_flat_map. exists cd. split; [eapply nth_error_In; exact C2|]. exact (needs_refs _ _ _ _ N). }
  assert (LB : forall i j, uses_below sch i j -> In i (labels sch) /\ In j (labels sch)).
  { intros i j [H|H].
    - pose proof H as (e & F & _). split; [exact (find_label sch i e F)|exact (uses_label sch i j H)].
    - split; unfold labels; apply in_app_iff; right; apply in_app_iff; right; apply nodes_In; [exists j; right|exists i; left]; exact H. }
  destruct (rank_exists (labels sch) succ) as (r & R1 & R2).
  - intros k j _ H. apply U in H. exact (proj2 (LB k j H)).
  - exists r. split; [split|].
    + intros i j H. assert (X : uses_below sch i j) by (left; exact H). apply R1; [exact (proj1 (LB i j X))|apply U; exact X].
    + intros i j N. assert (H : uses_below sch i j) by (left; exists (ENot j); split; [exact N|reflexivity]).
      apply R2; [exact (proj1 (LB i j H))|apply U; exact H|]. intro Q. apply S. exists i, j. split; [exact N|]. split; [exact H|].
      exact (reach_iff _ _ j i (fun x y => U x y) Q).
    + intros i j H. assert (X : uses_below sch j i) by (right; exact H). apply R1; [exact (proj1 (LB j i X))|apply U; exact X].
Qed.

(** ** the check exists *)

Section Answer.
  Variable eval : nat -> nat -> bool.
  Variable external : nat -> nat -> bool.
  Variable border : list (option nat * table) -> list (option nat * table).
  Variable corder : list class -> list class.
  Variable sch : schema.
  Variable g : rdf.
  Hypothesis H_border : forall l, Permutation (border l) l.
  Hypothesis H_corder : forall l, Permutation l (corder l).
  Hypothesis H_g : NoDup g.
  Hypothesis H_dec : all_decided sch.

  Lemma some_fuel l n s t : find sch l = Some (EShape s) -> s_extends s <> [] ->
    exists f, is_some (check_shape_extends eval external border corder sch g f l n s t) = true.
  Proof.
    intros F X. set (T := fun n l => t (key n l)).
    assert (E : forall k, t k = EngineFinal.flat T k) by (intro k; unfold EngineFinal.flat, T; rewrite key_eta; reflexivity).
    destruct (extends_total eval external border corder sch g H_border H_corder H_g H_dec l n s T F X) as (f & b & Q).
    exists f. rewrite (extends_same eval external border corder sch g t _ E), Q. reflexivity.
  Qed.
  Definition answer_of l n s t (F : find sch l = Some (EShape s)) (X : s_extends s <> []) : bool :=
    let f := proj1_sig (constructive_indefinite_ground_description_nat _ (fun f => bool_dec _ true) (some_fuel l n s t F X)) in
    match check_shape_extends eval external border corder sch g f l n s t with Some b => b | None => false end.
  Definition answer (l n : nat) (s : shape) (t : nat -> bool) : bool :=
    match find sch l as x return find sch l = x -> bool with
    | Some (EShape s') => fun F =>
        match s_extends s' as y return s_extends s' = y -> bool with
        | [] => fun _ => false
        | p :: ps => fun X => answer_of l n s' t F (fun Z => nil_cons (eq_trans (eq_sym Z) X))
        end eq_refl
    | _ => fun _ => false
    end eq_refl.
  Lemma answer_answers : answers eval external border corder sch g answer.
  Proof.
    intros l n s t F X. unfold answer.
    assert (A : forall x (E : find sch l = x), x = Some (EShape s) -> exists f, check_shape_extends eval external border corder sch g f l n s t = Some (
      match x as x return find sch l = x -> bool with
      | Some (EShape s') => fun F =>
          match s_extends s' as y return s_extends s' = y -> bool with
          | [] => fun _ => false
          | p :: ps => fun X => answer_of l n s' t F (fun Z => nil_cons (eq_trans (eq_sym Z) X))
          end eq_refl
      | _ => fun _ => false
      end E)).
    { intros x E Ex. destruct x as [[es|es|i|c|s'| |i|]|]; try discriminate Ex. injection Ex as ->.
      assert (B : forall y (Y : s_extends s = y), exists f, check_shape_extends eval external border corder sch g f l n s t = Some (
        match y as y return s_extends s = y -> bool with
        | [] => fun _ => false
        | p :: ps => fun X => answer_of l n s t E (fun Z => nil_cons (eq_trans (eq_sym Z) X))
        end Y)).
      { intros [|p ps] Y; [destruct (X Y)|]. unfold answer_of.
        destruct (constructive_indefinite_ground_description_nat _ _ _) as (f & Q). cbn [proj1_sig]. exists f.
        destruct (check_shape_extends eval external border corder sch g f l n s t) as [b|]; [reflexivity|discriminate]. }
      exact (B _ eq_refl). }
    exact (A (find sch l) eq_refl F).
  Qed.
End Answer.
