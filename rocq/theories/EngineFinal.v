(** The engine on schemas without inheritance. *)
From Coq Require Import List Arith Bool Lia Permutation Cantor.
Import ListNotations.
From Verif Require Import RbeModel RbeSpec PendingModel PendingSpec PendingLemmas TableModel TableSpec TableLemmas
  GraphModel GraphSpec GraphLemmas ProveModel ProveSpec ProveLemmas ProveTotal ProveSem ProveHist EngineModel EngineSpec EngineShape EngineLemmas.

Definition tables_built (sch : schema) : Prop := forall i s, find sch i = Some (EShape s) -> tbuilt (s_table s).

Lemma exact_built sch : exact sch -> tables_built sch.
Proof. intros E i s F. destruct (E i s F) as ((B & _) & _). exact B. Qed.

Section Final.
  Variable eval : nat -> nat -> bool.
  Variable external : nat -> nat -> bool.
  Variable default_pred : nat.
  Variable check_extends : nat -> nat -> shape -> (nat -> bool) -> bool.
  Variable sch : schema.
  Variable g : rdf.
  Notation dep := (engine_dep default_pred sch g).
  Notation missing := (engine_missing sch).
  Notation abst := (engine_abstract sch).
  Notation desc := (engine_desc sch).
  Notation check := (engine_check eval external check_extends sch g).
  Hypothesis H_inh : no_inheritance sch.
  Hypothesis H_plain : plain sch.
  Hypothesis H_built : tables_built sch.

  Lemma no_abstract k : abst k = false /\ desc k = [].
  Proof.
    destruct H_inh as (A & I & _). split.
    - unfold engine_abstract. rewrite A. reflexivity.
    - destruct (desc k) as [|d l] eqn:E; [reflexivity|exfalso].
      assert (X : In d (desc k)) by (rewrite E; left; reflexivity). apply desc_In in X. destruct X as (j & _ & N & R).
      inversion R as [|a b c (w & W) R' Y Z]; subst; [exact (N eq_refl)|]. rewrite I in W. destruct W.
  Qed.

  Definition negated (k j : nat) : Prop := label_negates sch (label_of k) (label_of j).

  (** the pairs a shape looks at are among its dependencies *)
  Lemma shape_dep k s p v r : find sch (label_of k) = Some (EShape s) ->
    In (IOk p) (matches eval (s_table s) (filter (fun kv : nat * nat => negb (mem (fst kv) (s_extra s)) ||
                  matches_any_leaf eval (s_table s) (fst kv) (snd kv)) (fst (neighs (node_of k) (candidate_preds s) g)))) ->
    pair p v r -> In (key v r) (dep k).
  Proof.
    intros F H P. destruct (items_pairs eval _ _ p v r (H_built _ s F) H P) as ([q w] & c & cd & I & C & N).
    cbn [fst snd] in *. apply filter_In in I. destruct I as [I _]. apply neighs_In in I. destruct I as [_ I].
    pose proof (H_plain _ s F c q cd C) as PC. destruct cd as [x|r'|cs].
    - destruct N.
    - destruct N as [-> ->]. apply (In_dep_reference default_pred sch g k (EShape s) q w r' F); [|exact I].
      rewrite references_shape; [|exact (proj2 (proj2 H_inh) _ s F)]. apply value_references_In. exists c. exact C.
    - destruct (PC w v r N).
  Qed.

  Lemma check_monotone : monotone_but dep check negated.
  Proof.
    intros k T T' D H. unfold engine_check in *. destruct (find sch (label_of k)) as [e|] eqn:F; [|discriminate].
    assert (DD : forall i, In i (direct_references e) -> T (key (node_of k) i) = true -> (forall i', e <> ENot i') -> T' (key (node_of k) i) = true).
    { intros i I X NN. destruct (D (key (node_of k) i) (In_dep_direct default_pred sch g k e i F I)) as [Y|[_ Y]]; [congruence|exact (Y X)]. }
    destruct e as [l|l|i|c|s| |i|]; cbn [check_node_shape_expr] in *.
    - apply existsb_exists in H. destruct H as (i & I & H). apply existsb_exists. exists i. split; [exact I|]. apply DD; [exact I|exact H|discriminate].
    - rewrite forallb_forall in *. intros i I. apply DD; [exact I|exact (H i I)|discriminate].
    - destruct (D (key (node_of k) i)) as [Y|[Y _]].
      + apply (In_dep_direct default_pred sch g k (ENot i) i F). left. reflexivity.
      + rewrite <- Y. exact H.
      + destruct Y. unfold negated, label_negates. rewrite key_label. exact F.
    - exact H.
    - rewrite (proj2 (proj2 H_inh) _ s F) in *. unfold check_node_shape in *.
      destruct (neighs (node_of k) (candidate_preds s) g) as [values rem] eqn:EN.
      destruct (s_closed s && negb match rem with [] => true | _ :: _ => false end); [discriminate|].
      unfold check_expr_neigh in *. refine (some_item_mono T T' _ _ H). intros p v r I P X.
      assert (J : In (key v r) (dep k)) by (apply (shape_dep k s p v r F); [rewrite EN; exact I|exact P]).
      destruct (D _ J) as [Y|[_ Y]]; [congruence|exact (Y X)].
    - exact H.
    - apply (DD i); [left; reflexivity|exact H|discriminate].
    - exact H.
  Qed.

  Lemma check_local : local dep check.
  Proof.
    intros k T T' E. destruct (check k T) eqn:A, (check k T') eqn:B; try reflexivity; exfalso.
    - assert (X : check k T' = true); [|congruence]. apply (check_monotone k T T'); [|exact A]. intros j J. left. exact (E j J).
    - assert (X : check k T = true); [|congruence]. apply (check_monotone k T' T); [|exact B]. intros j J. left. symmetry. exact (E j J).
  Qed.

  Lemma check_ext k T T' : (forall j, T j = T' j) -> check k T = check k T'.
  Proof. intro E. apply check_local. intros j _. apply E. Qed.

  (** ** histories *)

  Lemma run_well ord fuel pending : orders ord -> forall s r s', settled_cache dep check s ->
    engine_run eval external default_pred check_extends sch g ord fuel pending s = (Some r, s') ->
    map fst r = pending /\ settled_cache dep check s' /\ forall k b, In (k, b) r -> verdict_given dep check [] k b.
  Proof.
    intro O. unfold engine_run. induction pending as [|k l IH]; intros s r s' S H; cbn [validate_pending] in H.
    - injection H as <- <-. split; [reflexivity|]. split; [exact S|intros k b []].
    - destruct (prove dep missing abst desc check ord fuel k [] s) as [o s1] eqn:E. destruct o as [| |b]; try discriminate.
      destruct (prove_well dep missing abst desc check ord O check_local no_abstract fuel k [] s (Verdict b) s1) as [S1 (m & _ & G & _)];
        [intros h []|exact S|exact E|].
      destruct (validate_pending dep missing abst desc check ord fuel l s1) as [[r1|] s2] eqn:R; [|discriminate].
      injection H as <- <-. destruct (IH s1 r1 s2 S1 R) as (M & S2 & V). cbn [map fst]. split; [congruence|]. split; [exact S2|].
      intros k' b' [X|X]; [injection X as <- <-; exact G|exact (V k' b' X)].
  Qed.

  Lemma fresh_settled : settled_cache dep check fresh.
  Proof. intros k b H. discriminate. Qed.

  (** ** the two readings of typings *)

  Definition flat (T : typing) (k : nat) : bool := T (node_of k) (label_of k).

  Hypothesis H_g : NoDup g.
  Hypothesis H_exact : exact sch.
  Notation meets := (holds eval external (shape_holds_variant eval g)).

  Lemma check_holds T k e : find sch (label_of k) = Some e ->
    (check k (flat T) = true <-> meets T (node_of k) (label_of k) e).
  Proof.
    intro F. unfold engine_check. rewrite F. unfold flat. destruct e as [l|l|i|c|s| |i|]; cbn [check_node_shape_expr holds].
    - rewrite existsb_exists. split; intros (i & I & H); exists i; (split; [exact I|]); rewrite key_node, key_label in *; exact H.
    - rewrite forallb_forall. split; intros H i I; specialize (H i I); rewrite key_node, key_label in *; exact H.
    - rewrite key_node, key_label. apply negb_true_iff.
    - pose proof (cond_matches_spec eval c (node_of k)) as X. destruct (cond_matches eval c (node_of k)); cbn [is_some].
      + split; [intros _; apply X|reflexivity].
      + split; [discriminate|intro S; destruct (X S)].
    - rewrite (proj2 (proj2 H_inh) _ s F). apply check_node_shape_spec; [exact H_g|exact (H_exact _ s F)].
    - reflexivity.
    - rewrite key_node, key_label. reflexivity.
    - split; [intros _; exact I|reflexivity].
  Qed.

  Lemma justified_holds T k : justified abst desc check (flat T) k <->
    exists e, find sch (label_of k) = Some e /\ meets T (node_of k) (label_of k) e.
  Proof.
    destruct (no_abstract k) as [A D]. unfold justified. rewrite A, D. split.
    - intros [[_ C]|(d & [] & _)]. destruct (find sch (label_of k)) as [e|] eqn:F; [|unfold engine_check in C; rewrite F in C; discriminate].
      exists e. split; [reflexivity|]. apply (check_holds T k e F). exact C.
    - intros (e & F & M). left. split; [reflexivity|]. apply (check_holds T k e F). exact M.
  Qed.

  Lemma justified_ext T T' k : (forall j, T j = T' j) -> justified abst desc check T k -> justified abst desc check T' k.
  Proof.
    intros E [[A C]|(d & D & Td)]; [left; split; [exact A|]; rewrite <- C; symmetry; apply check_ext; exact E|].
    right. exists d. split; [exact D|]. rewrite <- E. exact Td.
  Qed.

  (** the verdict on stratified schemas *)
  Variable str : nat -> nat.
  Hypothesis H_str : strata sch str.
  Variable nodes : list nat.
  Hypothesis H_nodes : covers nodes g.

  Lemma reach_str i j : reach (label_uses sch) i j -> str j <= str i.
  Proof. induction 1 as [a|a b c U R IH]; [auto|]. pose proof (proj1 H_str a b U). lia. Qed.

  Lemma pairs_stratify all : stratifies dep desc all negated (fun k => str (label_of k)).
  Proof.
    split.
    - intros k j _ [D|D]; [exact (reach_str _ _ (dep_label default_pred sch g k j D))|].
      destruct (no_abstract k) as [_ E]. rewrite E in D. destruct D.
    - intros k j _ _ N. exact (proj2 H_str _ _ N).
  Qed.

  Lemma pair_node ml k : In k (pairs sch g nodes ml) -> In (node_of k) nodes.
  Proof.
    intro K. apply pairs_In in K. destruct K as [K _]. apply in_app_iff in K. destruct K as [K|K]; [exact K|].
    unfold graph_nodes in K. apply in_flat_map in K. destruct K as ([[s p] o] & H & I). destruct (H_nodes s p o H) as [A B].
    cbn [fst snd] in I. destruct I as [<-|[<-|[]]]; assumption.
  Qed.

  (** a stratified typing of pairs and one of numbers *)
  Lemma V_stratified V ml : stratified eval external (shape_holds_variant eval g) sch nodes str V ->
    stratified_typing abst desc check (pairs sch g nodes ml) (fun k => str (label_of k)) (flat V).
  Proof.
    intros H_V k K. set (all := pairs sch g nodes ml) in *. assert (CL : closed dep desc all) by apply pairs_closed.
    unfold flat at 1. rewrite (H_V (node_of k) (label_of k) (pair_node ml k K)). split.
    - intros (T & Tk & L & J). exists (flat T). split; [exact Tk|]. split.
      + intros i Ia Li. unfold flat. apply L; [exact (pair_node ml i Ia)|exact Li].
      + intros j Ja Sj Tj. apply justified_holds. apply J; [exact (pair_node ml j Ja)|exact Sj|exact Tj].
    - intros (T & Tk & L & J). set (n0 := str (label_of k)) in *.
      exists (fun m j => if mem (key m j) all then T (key m j) else if str j <? n0 then V m j else false). split; [|split].
      + rewrite key_eta. rewrite (proj2 (mem_In k all) K). exact Tk.
      + intros m j Nm Lj. fold n0 in Lj. destruct (mem (key m j) all) eqn:M.
        * apply mem_In in M. rewrite (L (key m j) M); [unfold flat; rewrite key_node, key_label; reflexivity|].
          rewrite key_label. exact Lj.
        * rewrite (proj2 (Nat.ltb_lt _ _) Lj). reflexivity.
      + intros m j Nm Ej. fold n0 in Ej. destruct (mem (key m j) all) eqn:M.
        2:{ rewrite Ej, Nat.ltb_irrefl. discriminate. }
        intro Tj. apply mem_In in M.
        pose proof (J (key m j) M) as Q. rewrite key_label in Q. specialize (Q Ej Tj).
        destruct Q as [[A C]|(d & D & _)]; [|destruct (no_abstract (key m j)) as [_ E]; rewrite E in D; destruct D].
        destruct (find sch j) as [e|] eqn:F; [|unfold engine_check in C; rewrite key_label, F in C; discriminate].
        exists e. split; [reflexivity|].
        pose proof (check_holds (fun m j => if mem (key m j) all then T (key m j) else if str j <? n0 then V m j else false) (key m j) e) as X.
        rewrite key_label, key_node in X. apply (X F). rewrite <- C. apply check_local. intros i I. unfold flat. rewrite key_eta.
        assert (Ia : In i all) by (apply (CL (key m j) i M); left; exact I).
        rewrite (proj2 (mem_In i all) Ia). reflexivity.
  Qed.

  Lemma stratified_exists : exists V, stratified eval external (shape_holds_variant eval g) sch nodes str V.
  Proof.
    set (all := pairs sch g nodes []). assert (CL : closed dep desc all) by apply pairs_closed.
    destruct (stratified_typing_exists dep abst desc check negated (fun k => str (label_of k)) all CL check_monotone (pairs_stratify all))
      as (V' & HV).
    exists (fun n l => V' (key n l) && mem (key n l) all). intros n l Nn.
    assert (IN : forall m j, In m nodes -> In j (labels sch) -> In (key m j) all).
    { intros m j Nm Lj. apply pairs_In. rewrite key_node, key_label. split; [apply in_app_iff; left; exact Nm|exact Lj]. }
    destruct (mem (key n l) all) eqn:M.
    - apply mem_In in M. rewrite andb_true_r. rewrite (HV (key n l) M). rewrite key_label. split.
      + intros (T & Tk & L & J). exists (fun m j => T (key m j) && mem (key m j) all).
        split; [rewrite Tk; apply mem_In; exact M|]. split.
        * intros m j Nm Lj. destruct (mem (key m j) all) eqn:Q; [|rewrite !andb_false_r; reflexivity].
          apply mem_In in Q. rewrite (L (key m j) Q); [reflexivity|]. rewrite key_label. exact Lj.
        * intros m j Nm Ej Tj. apply andb_true_iff in Tj. destruct Tj as [Tj Q]. apply mem_In in Q.
          pose proof (J (key m j) Q) as X. rewrite key_label in X. specialize (X Ej Tj).
          destruct X as [[A C]|(d & D & _)]; [|destruct (no_abstract (key m j)) as [_ E]; rewrite E in D; destruct D].
          destruct (find sch j) as [e|] eqn:F; [|unfold engine_check in C; rewrite key_label, F in C; discriminate].
          exists e. split; [reflexivity|].
          pose proof (check_holds (fun m j => T (key m j) && mem (key m j) all) (key m j) e) as X.
          rewrite key_label, key_node in X. apply (X F). rewrite <- C. apply check_local. intros i I. unfold flat. rewrite key_eta.
          assert (Ia : In i all) by (apply (CL (key m j) i Q); left; exact I).
          rewrite (proj2 (mem_In i all) Ia). apply andb_true_r.
      + intros (T & Tk & L & J). exists (flat T). split; [unfold flat; rewrite key_node, key_label; exact Tk|]. split.
        * intros i Ia Li. unfold flat. rewrite (L (node_of i) (label_of i) (pair_node [] i Ia) Li).
          rewrite key_eta, (proj2 (mem_In i all) Ia). apply andb_true_r.
        * intros j Ja Sj Tj. apply justified_holds. apply J; [exact (pair_node [] j Ja)|exact Sj|exact Tj].
    - rewrite andb_false_r. split; [discriminate|]. intros (T & Tk & _ & J). destruct (J n l Nn eq_refl Tk) as (e & F & _).
      apply mem_not_In in M. destruct M. apply IN; [exact Nn|exact (find_label sch l e F)].
  Qed.

  Theorem engine_exact V ord fuel pending r s' n l b : orders ord ->
    stratified eval external (shape_holds_variant eval g) sch nodes str V ->
    (forall k, In k pending -> In (node_of k) nodes) ->
    engine_run eval external default_pred check_extends sch g ord fuel pending fresh = (Some r, s') ->
    In (key n l, b) r -> b = V n l.
  Proof.
    intros O H_V NP H I.
    set (all := pairs sch g nodes (map label_of pending)).
    assert (P : forall k, In k pending -> In k all).
    { intros k K. apply pairs_In. split; apply in_app_iff; left; [exact (NP k K)|apply in_map; exact K]. }
    assert (S0 : sound all (flat V) fresh) by (intros k c X; discriminate).
    assert (CL : closed dep desc all) by apply pairs_closed.
    pose proof (V_stratified V (map label_of pending) H_V) as HV. fold all in HV. clearbody all.
    assert (G : forall k c, In (k, c) r -> c = flat V k).
    { clear I n l b NP. unfold engine_run in H. revert s' r H. generalize dependent fresh.
      induction pending as [|k l IH]; intros s S0 s' r H k' c I; cbn [validate_pending] in H.
      - injection H as <- <-. destruct I.
      - destruct (prove dep missing abst desc check ord fuel k [] s) as [o s1] eqn:E. destruct o as [| |b]; try discriminate.
        assert (K : In k all) by (apply P; left; reflexivity).
        destruct (prove_good dep missing abst desc check ord negated (fun k => str (label_of k)) all O CL check_monotone
                    (pairs_stratify all) (flat V) HV check_local fuel k [] s (Verdict b) s1 K) as [S1 _]; [intros h []|exact S0|exact E|].
        pose proof (prove_exact dep missing abst desc check ord negated (fun k => str (label_of k)) all O CL check_monotone
                    (pairs_stratify all) (flat V) HV check_local fuel k s b s1 K S0 E) as X.
        destruct (validate_pending dep missing abst desc check ord fuel l s1) as [[r1|] s2] eqn:R; [|discriminate].
        injection H as <- <-. destruct I as [I|I]; [injection I as <- <-; exact X|].
        apply (IH (fun k K => P k (or_intror K)) s1 S1 s2 r1 R k' c I). }
    rewrite (G (key n l) b I). unfold flat. rewrite key_node, key_label. reflexivity.
  Qed.

  (** the stratified typing is a fixpoint, so negation is complement *)
  Lemma stratified_fixpoint V n l : stratified eval external (shape_holds_variant eval g) sch nodes str V -> In n nodes ->
    (V n l = true <-> exists e, find sch l = Some e /\ meets V n l e).
  Proof.
    intros H_V Nn. set (all := pairs sch g nodes [l]). assert (CL : closed dep desc all) by apply pairs_closed.
    pose proof (V_stratified V [l] H_V) as HV. fold all in HV.
    assert (K : In (key n l) all).
    { apply pairs_In. rewrite key_node, key_label. split; apply in_app_iff; left; [exact Nn|left; reflexivity]. }
    pose proof (V_justified dep abst desc check negated (fun k => str (label_of k)) all CL check_monotone (pairs_stratify all) (flat V) HV (key n l) K) as A.
    pose proof (justified_V dep abst desc check negated (fun k => str (label_of k)) all CL check_monotone (pairs_stratify all) (flat V) HV (key n l) K) as B.
    pose proof (justified_holds V (key n l)) as X. unfold flat at 1 in A. unfold flat at 2 in B. rewrite key_node, key_label in *. split.
    - intro E. apply X, A, E.
    - intro E. apply B, X, E.
  Qed.
End Final.

Lemma stratum_exists sch : tables_built sch -> stratified_schema sch -> exists str, strata sch str.
Proof.
  intros B S.
  set (succ := fun i => match find sch i with Some e => expr_labels e | None => [] end).
  assert (U : forall i j, In j (succ i) <-> label_uses sch i j).
  { intros i j. unfold succ, label_uses. destruct (find sch i) as [e|] eqn:F.
    2:{ split; [intros []|intros (e & X & _); discriminate]. }
    split.
    - intro H. exists e. split; [reflexivity|]. destruct e; cbn [expr_labels] in H; try exact H; try (destruct H as [<-|[]]; reflexivity).
      apply in_app_iff in H. destruct H as [H|H]; [left; exact H|right]. apply in_flat_map in H. destruct H as (cd & H & R).
      apply In_nth_error in H. destruct H as (c & H). destruct (components_spec (fun _ _ => true) _ (B i s F)) as (L & _).
      destruct (nth_error (t_ckey (s_table s)) c) as [k|] eqn:K.
      + exists c, k, cd, 0, 0. split; [split; assumption|]. clear -R. induction cd as [x|r|cs IH] using mcond_ind'.
        * destruct R.
        * destruct R as [<-|[]]. split; reflexivity.
        * cbn [cond_refs] in R. cbn [TableSpec.needs]. apply in_flat_map in R. destruct R as (c & Hc & R). rewrite Forall_forall in IH.
          specialize (IH c Hc R). clear R. induction cs as [|d ds IHd]; [destruct Hc|]. cbn [fold_right]. destruct Hc as [->|Hc]; [left; exact IH|right; apply IHd; exact Hc].
      + exfalso. apply nth_error_None in K. assert (c < length (t_cond (s_table s))) by (apply nth_error_Some; congruence). lia.
    - intros (e' & X & H). injection X as <-. destruct e; cbn [expr_labels]; try exact H; try (left; congruence); try (destruct H; fail).
      apply in_app_iff. destruct H as [H|(c & k & cd & v & v' & [C1 C2] & N)]; [left; exact H|right].
      apply in_flat_map. exists cd. split; [eapply nth_error_In; exact C2|]. exact (needs_refs _ _ _ _ N). }
  destruct (rank_exists (labels sch) succ) as (r & R1 & R2).
  - intros k j _ H. apply U in H. exact (uses_label sch k j H).
  - exists r. split.
    + intros i j H. pose proof H as (e & F & _). apply R1; [exact (find_label sch i e F)|apply U; exact H].
    + intros i j N. assert (H : label_uses sch i j) by (exists (ENot j); split; [exact N|reflexivity]).
      apply R2; [exact (find_label sch i _ N)|apply U; exact H|]. intro Q. apply S. exists i, j. split; [exact N|]. split; [exact H|].
      exact (reach_iff _ _ j i (fun x y => U x y) Q).
Qed.

(** ** the two readings of the remainder *)

Lemma same_remainder_holds eval g T n s : same_remainder s ->
  (shape_holds eval g T n s <-> shape_holds_variant eval g T n s).
Proof.
  intros (D & X & C). split; intros (matched & rest & cs & NB & F & L & R); exists matched, rest, cs;
    (split; [exact NB|]; split; [exact F|]; split; [exact L|]).
  - intros k v I. split.
    + intro M. destruct (R k v I (D k M)) as [R1 _]. destruct (R1 M) as [E N]. split; [exact E|]. intros c cd Cc. split.
      * intro S. apply N. exists c, cd. split; [exact Cc|]. split; [exact S|]. intros v' r Nd. destruct (X c k cd v v' r Cc E Nd).
      * intros v' r. exact (X c k cd v v' r Cc E).
    + intros NM Dk Cl. destruct (R k v I Dk) as [_ R2]. rewrite (R2 NM) in Cl. discriminate.
  - intros k v I Dk. destruct (R k v I) as [R1 R2]. split.
    + intro M. destruct (R1 M) as [E N]. split; [exact E|]. intros (c & cd & Cc & S & _). exact (proj1 (N c cd Cc) S).
    + intro NM. destruct (s_closed s) eqn:Q; [|reflexivity]. destruct (NM (C eq_refl k (R2 NM Dk eq_refl))).
Qed.

Lemma conforms_same eval external g sch n l :
  (forall i s, find sch i = Some (EShape s) -> same_remainder s) ->
  (conforms eval external (shape_holds eval g) sch n l <-> conforms eval external (shape_holds_variant eval g) sch n l).
Proof.
  intro S. split; intros (T & Tn & J); exists T; (split; [exact Tn|]); intros m j Tj; destruct (J m j Tj) as (e & F & H);
    exists e; (split; [exact F|]); destruct e; try exact H; cbn [holds] in *; apply (same_remainder_holds eval g T m s (S j s F)); exact H.
Qed.
