(** Properties of property graphs and type maps. *)
From Coq Require Import List Bool Arith ZArith Sorted Lia.
Import ListNotations.
From Verif Require Import PgsModel PgsSpec PgsLemmas PgsMain PgsProps PgModel PgSpec PgLemmas PgBuild PgMerge.

(** ** C63: building a graph from statements *)

(** It succeeds exactly when every edge comes after the nodes it is between. *)
Theorem C63_succeeds ss : (exists g, parse_pg ss = Ok g) <-> ordered ss.
Proof.
  unfold parse_pg. rewrite get_statements_ready. unfold ready, ordered. cbn [g_node_names pg_new lookup].
  split; intros H before x s t ls ps after E; destruct (H before x s t ls ps after E) as [A B].
  - split; [destruct A as [A|A]|destruct B as [B|B]]; auto; congruence.
  - auto.
Qed.
Print Assumptions C63_succeeds.

Theorem C63_well_formed ss g : parse_pg ss = Ok g -> wf g.
Proof. apply get_statements_wf, wf_new. Qed.
Print Assumptions C63_well_formed.

(** When no name is declared twice, each node statement gives a node and each edge
    statement an edge between the nodes it names; there are no other edges, and every
    node is named. *)
Theorem C63_nodes_partial ss g x ls ps : parse_pg ss = Ok g -> NoDup (node_ids ss) ->
  In (SNode x ls ps) ss -> exists n, named g x n /\ node_of ls ps n.
Proof. intros H N I. eapply built_nodes; [apply wf_new|exact H|exact N|exact I]. Qed.
Print Assumptions C63_nodes_partial.

Theorem C63_edges_partial ss g : parse_pg ss = Ok g -> NoDup (node_ids ss) ->
  Forall2 (fun s ie => edge_of g s (snd ie)) (edge_statements ss) (g_edges g) /\ all_named g.
Proof.
  intros H N. split.
  - destruct (built_edges ss pg_new g wf_new H N) as [es [E F]]; [intros x _; reflexivity|]. rewrite E. exact F.
  - eapply built_named; [apply wf_new| |exact H|exact N|intros x _; reflexivity]. intros i e L. discriminate.
Qed.
Print Assumptions C63_edges_partial.

Theorem C63_names ss g x n : parse_pg ss = Ok g -> named g x n -> In x (node_ids ss).
Proof.
  intros H [i [L _]]. destruct (in_dec Nat.eq_dec x (node_ids ss)) as [I|I]; [exact I|].
  rewrite (names_after _ _ _ _ H I) in L. discriminate.
Qed.
Print Assumptions C63_names.

(** A name declared twice is taken over by the second node; an edge declared before stays
    with the first, which no name leads to any more. *)
Theorem C63_twice_refuted : exists ss g, parse_pg ss = Ok g /\ ordered ss /\ ~ all_named g /\
  exists s, In s (edge_statements ss) /\ forall i e, In (i, e) (g_edges g) -> ~ edge_of g s e.
Proof.
  exists [SNode 1 [] []; SEdge None 1 1 [] []; SNode 1 [] []]. eexists. split; [reflexivity|].
  split; [apply C63_succeeds; eexists; reflexivity|]. split.
  - intro A. destruct (A 0 (mkEdge 0 0 [] []) eq_refl) as [[x X] _]. cbn in X.
    destruct (x =? 1); discriminate.
  - exists (SEdge None 1 1 [] []). split; [now left|]. intros i e [E|[]]. injection E as <- <-. intros [H _]. discriminate.
Qed.
Print Assumptions C63_twice_refuted.

(** All edges without a name share one. *)
Theorem C63_unnamed_edges_refuted : exists ss g, parse_pg ss = Ok g /\ NoDup (node_ids ss) /\
  exists i e, In (i, e) (g_edges g) /\ forall x, lookup (g_edge_names g) x <> Some i.
Proof.
  exists [SNode 1 [] []; SEdge None 1 1 [2] []; SEdge None 1 1 [3] []]. eexists. split; [reflexivity|].
  split; [repeat constructor; auto|]. exists 0, (mkEdge 0 0 [2] []). split; [now left|].
  intros x. cbn [parse_pg get_statements]. unfold g_edge_names. vm_compute. destruct x; congruence.
Qed.
Print Assumptions C63_unnamed_edges_refuted.

Definition ex_ss : list statement :=
  [SNode 1 [11] [(21, [VInteger 3; VInteger 3]); (21, [VInteger 4])]; SNode 2 [12] []; SEdge (Some 5) 1 2 [13] [(22, [])]].
Example C63_met : NoDup (node_ids ex_ss) /\
  parse_pg ex_ss = Ok (mkPg [(0, mkNode [11] [(21, [VInteger 3; VInteger 4])]); (1, mkNode [12] [])]
    [(0, mkEdge 0 1 [13] [(22, [])])] [(1, 0); (2, 1)] [(5, 0)] 2 1).
Proof. split; [cbn; repeat constructor; cbn; lia|reflexivity]. Qed.

(** ** C64: merging *)

(** Merging panics exactly when an end of an edge of the other graph has no name. *)
Theorem C64_succeeds self other : wf self -> wf other -> (pg_merge self other <> None <-> all_named other).
Proof.
  intros Ws Wo. destruct (merge_all self other Ws Wo) as [A B]. split.
  - intro H. destruct (pg_merge self other) as [g|] eqn:E; [|now destruct H]. apply (B g eq_refl).
  - intro An. destruct (A An) as [g E]. congruence.
Qed.
Print Assumptions C64_succeeds.

(** Nodes are united by name, and the edges of both are there. *)
Theorem C64_merged self other g : wf self -> wf other -> pg_merge self other = Some g -> wf g /\ merged self other g.
Proof. intros Ws Wo E. apply (merge_all self other Ws Wo). exact E. Qed.
Print Assumptions C64_merged.

Theorem C64_chain self other g : wf self -> wf other -> all_named self -> pg_merge self other = Some g -> all_named g.
Proof.
  intros Ws Wo A E. destruct (C64_merged _ _ _ Ws Wo E) as [Wg M]. exact (merged_all_named self other g Ws Wg M A).
Qed.
Print Assumptions C64_chain.

(** Graphs read from statements without a name declared twice can be merged, in any number. *)
Theorem C64_files_partial sss g0 : wf g0 -> all_named g0 ->
  (forall ss, In ss sss -> ordered ss /\ NoDup (node_ids ss)) ->
  exists g, fold_left (fun acc ss => match acc, parse_pg ss with Some g, Ok h => pg_merge g h | _, _ => None end) sss (Some g0) = Some g /\
    wf g /\ all_named g /\ forall ss x ls ps l, In ss sss -> In (SNode x ls ps) ss -> In l ls ->
      exists n, named g x n /\ In l (n_labels n).
Proof.
  enough (GEN : wf g0 -> all_named g0 -> (forall ss, In ss sss -> ordered ss /\ NoDup (node_ids ss)) ->
    exists g, fold_left (fun acc ss => match acc, parse_pg ss with Some g, Ok h => pg_merge g h | _, _ => None end) sss (Some g0) = Some g /\
    wf g /\ all_named g /\ (forall x n l, named g0 x n -> In l (n_labels n) -> exists m, named g x m /\ In l (n_labels m)) /\
    forall ss x ls ps l, In ss sss -> In (SNode x ls ps) ss -> In l ls -> exists n, named g x n /\ In l (n_labels n)).
  { intros W A H. destruct (GEN W A H) as [g [E [Wg [Ag [_ K]]]]]. exists g. auto. }
  revert g0; induction sss as [|ss sss IH]; intros g0 W A H; cbn [fold_left].
  - exists g0. split; [reflexivity|]. split; [exact W|]. split; [exact A|]. split; [eauto|]. intros ss x ls ps l [].
  - destruct (H ss (or_introl eq_refl)) as [O N]. apply C63_succeeds in O as [h E]. rewrite E.
    pose proof (C63_well_formed _ _ E) as Wh. destruct (C63_edges_partial _ _ E N) as [_ Ah].
    destruct (merge_all g0 h W Wh) as [M1 _]. destruct (M1 Ah) as [g1 G1]. rewrite G1.
    destruct (C64_merged _ _ _ W Wh G1) as [W1 M]. pose proof (C64_chain _ _ _ W Wh A G1) as A1.
    destruct (IH g1 W1 A1) as [g [Eg [Wg [Ag [K1 K2]]]]]; [intros s I; apply H; now right|].
    exists g. split; [exact Eg|]. split; [exact Wg|]. split; [exact Ag|].
    assert (DEC : forall q y, (exists b, named q y b) \/ forall b, ~ named q y b).
    { intros q y. destruct (lookup (g_node_names q) y) as [i|] eqn:Q1.
      - destruct (lookup (g_nodes q) i) as [m|] eqn:Q2; [left; exists m, i; auto|]. right. intros b [j [J1 J2]]. congruence.
      - right. intros b [j [J1 J2]]. congruence. }
    split.
    + intros x n l Hn Hl. destruct (DEC h x) as [[b B]|B].
      * destruct (mg_both _ _ _ M x n b Hn B) as [c [C J]]. apply (K1 x c l C). apply J. auto.
      * apply (K1 x n l); [|exact Hl]. apply (mg_self _ _ _ M x n Hn B).
    + intros ss' x ls ps l [<-|I] S Hl; [|eapply K2; eassumption].
      destruct (C63_nodes_partial _ _ _ _ _ E N S) as [n [Hn [L _]]]. apply L in Hl.
      destruct (DEC g0 x) as [[a B]|B].
      * destruct (mg_both _ _ _ M x a n B Hn) as [c [C J]]. apply (K1 x c l C). apply J. auto.
      * apply (K1 x n l); [|exact Hl]. apply (mg_other _ _ _ M x n Hn B).
Qed.
Print Assumptions C64_files_partial.

(** A file that declares a name twice makes merging panic. *)
Theorem C64_panics_refuted : exists ss g, parse_pg ss = Ok g /\ pg_merge pg_new g = None.
Proof.
  exists [SNode 1 [] []; SEdge None 1 1 [] []; SNode 1 [] []]. eexists. split; reflexivity.
Qed.
Print Assumptions C64_panics_refuted.

(** A key without values is lost when the node is in both graphs and kept otherwise. *)
Theorem C64_empty_refuted : exists ss1 ss2 k g1 g2 g g', parse_pg ss1 = Ok g1 /\ parse_pg ss2 = Ok g2 /\
  pg_merge g1 g2 = Some g /\ pg_merge pg_new g2 = Some g' /\
  (exists n, named g2 1 n /\ has (n_content n) k) /\
  (exists n, named g' 1 n /\ has (n_content n) k) /\ (forall n, named g 1 n -> ~ has (n_content n) k).
Proof.
  exists [SNode 1 [] []], [SNode 1 [] [(21, [])]], 21. do 4 eexists.
  split; [reflexivity|]. split; [reflexivity|]. split; [reflexivity|]. split; [reflexivity|].
  split; [|split].
  - eexists. split; [exists 0; split; reflexivity|]. exists []. now left.
  - eexists. split; [exists 0; split; reflexivity|]. exists []. now left.
  - intros n [i [H1 H2]]. cbn in H1. injection H1 as <-. cbn in H2. injection H2 as <-. intros [vs []].
Qed.
Print Assumptions C64_empty_refuted.

(** Merging a graph with itself gives every edge twice. *)
Theorem C64_twice_refuted : exists ss g g', parse_pg ss = Ok g /\ pg_merge g g = Some g' /\
  length (g_edges g') = 2 * length (g_edges g) /\ g_edges g <> [].
Proof.
  exists [SNode 1 [] []; SEdge None 1 1 [] []]. do 2 eexists. split; [reflexivity|]. split; [reflexivity|]. split; [reflexivity|discriminate].
Qed.
Print Assumptions C64_twice_refuted.

Definition c64_first := Eval vm_compute in match parse_pg ex_ss with Ok g => g | _ => pg_new end.
Definition c64_second := Eval vm_compute in
  match parse_pg [SNode 2 [14] [(23, [VInteger 9])]; SNode 7 [] []; SEdge (Some 5) 2 7 [] []] with Ok g => g | _ => pg_new end.
Definition c64_both := Eval vm_compute in match pg_merge c64_first c64_second with Some g => g | None => pg_new end.
Example C64_met : exists g1 g2 g, parse_pg ex_ss = Ok g1 /\
  parse_pg [SNode 2 [14] [(23, [VInteger 9])]; SNode 7 [] []; SEdge (Some 5) 2 7 [] []] = Ok g2 /\
  wf g1 /\ wf g2 /\ all_named g2 /\ pg_merge g1 g2 = Some g /\
  g_nodes g = [(0, mkNode [11] [(21, [VInteger 3; VInteger 4])]); (1, mkNode [12; 14] [(23, [VInteger 9])]); (2, mkNode [] [])] /\
  g_edges g = [(0, mkEdge 0 1 [13] [(22, [])]); (1, mkEdge 1 2 [] [])] /\ g_edge_names g = [(5, 1)].
Proof.
  exists c64_first, c64_second, c64_both. split; [vm_compute; reflexivity|]. split; [vm_compute; reflexivity|]. split; [|split; [|split]].
  - apply (C63_well_formed ex_ss). vm_compute. reflexivity.
  - apply (C63_well_formed [SNode 2 [14] [(23, [VInteger 9])]; SNode 7 [] []; SEdge (Some 5) 2 7 [] []]). vm_compute. reflexivity.
  - eapply (C63_edges_partial [SNode 2 [14] [(23, [VInteger 9])]; SNode 7 [] []; SEdge (Some 5) 2 7 [] []]); [vm_compute; reflexivity|].
    cbn. repeat constructor; cbn; lia.
  - split; [vm_compute; reflexivity|]. split; [reflexivity|]. split; reflexivity.
Qed.

(** ** C65: type maps *)

Lemma clear_runs sc s fuel : clear_type sc s -> length (node_names sc) <= fuel ->
  exists b, semantics sc fuel s = Some (Ok b) /\
    forall rx n, good_node n -> (is_right (base_conforms rx b (n_labels n) (n_content n)) = true <-> conforming rx sc s n).
Proof.
  intros (A & S & L & E & K) Le.
  destruct (semantics sc fuel s) as [[b|e]|] eqn:Q;
    [|exfalso; exact (linked_no_error _ _ _ _ K Q)|exfalso; exact (C60_ends _ _ _ E Le Q)].
  exists b. split; [reflexivity|]. intros rx n G. apply semantics_yields in Q. split.
  - apply accepted_sound; assumption.
  - apply accepted_complete; assumption.
Qed.

Lemma all_right l :
  is_right (fold_left accumulate l (Right [])) = true <-> forall v, In v l -> is_right v = true.
Proof.
  assert (GEN : forall acc, is_right (fold_left accumulate l acc) = true <->
                            is_right acc = true /\ forall v, In v l -> is_right v = true).
  { induction l as [|x l IH]; intro acc; cbn [fold_left].
    - split; [intro H; split; [exact H|intros v []]|tauto].
    - rewrite IH. assert (A : is_right (accumulate acc x) = true <-> is_right acc = true /\ is_right x = true).
      { destruct acc, x; cbn; intuition discriminate. }
      rewrite A. split.
      + intros [[H1 H2] H3]. split; [exact H1|]. intros v [<-|I]; auto.
      + intros [H1 H2]. split; [split; [exact H1|apply H2; now left]|]. intros v I. apply H2. now right. }
  rewrite GEN. cbn. intuition.
Qed.

(** An edge is accepted exactly when it and the nodes at its ends conform. *)
Theorem C65_edge_partial rx sc fuel t et g i e :
  wf g -> lookup (g_edges g) i = Some e -> edge_defined sc t et ->
  clear_type sc (et_source et) -> clear_type sc (et_edge et) -> clear_type sc (et_target et) ->
  length (node_names sc) <= fuel ->
  exists v, conforms_edge rx sc fuel t (lookup (g_nodes g)) e = Some v /\
    (is_right v = true <-> edge_conforming rx sc g et e).
Proof.
  intros W L [j [D1 D2]] Cs Ce Ct Le. unfold conforms_edge. rewrite D1, D2. unfold edge_semantics.
  destruct (clear_runs _ _ _ Cs Le) as [bs [Es Hs]]. destruct (clear_runs _ _ _ Ce Le) as [be [Ee He]].
  destruct (clear_runs _ _ _ Ct Le) as [bt [Et Ht]]. rewrite Es, Ee, Et. cbn [rbind].
  eexists. split; [reflexivity|]. unfold esem_conforms. cbn [es_source es_edge es_target].
  destruct (wf_source _ W _ _ L) as [src Ls]. destruct (wf_target _ W _ _ L) as [tgt Lt]. rewrite Ls, Lt, all_right.
  pose proof (proj2 (wf_node_ids _ W _ _ Ls)) as Gs. pose proof (proj2 (wf_node_ids _ W _ _ Lt)) as Gt.
  pose proof (proj2 (wf_edge_ids _ W _ _ L)) as Ge.
  specialize (Hs rx src Gs). specialize (Ht rx tgt Gt). specialize (He rx _ Ge). cbn [n_labels n_content] in He.
  unfold edge_conforming. split.
  - intro H. exists src, tgt. split; [exact Ls|]. split; [exact Lt|]. split; [apply Hs, H; now left|].
    split; [apply Ht, H; right; right; now left|]. apply He, H. right. now left.
  - intros (s' & t' & Ls' & Lt' & C1 & C2 & C3). rewrite Ls in Ls'. rewrite Lt in Lt'. injection Ls' as <-. injection Lt' as <-.
    intros v [<-|[<-|[<-|[]]]]; [apply Hs, C1|apply He, C3|apply Ht, C2].
Qed.
Print Assumptions C65_edge_partial.

Lemma item_found g x ne : wf g -> (get_node_edge_by_label g x = Ok ne <-> item g x ne).
Proof.
  intro W. unfold get_node_edge_by_label, get_node_by_label, get_edge_by_label, item, named.
  destruct (lookup (g_node_names g) x) as [i|] eqn:E1.
  - destruct (wf_name _ W _ _ E1) as [n E2]. rewrite E2. split.
    + intros [= <-]. eauto.
    + destruct ne as [m|e].
      * intros [j [J1 J2]]. congruence.
      * intros [N _]. destruct (N n). eauto.
  - assert (N : forall n, ~ exists j, None = Some j /\ lookup (g_nodes g) j = Some n) by (intros n [j [J _]]; discriminate).
    destruct (lookup (g_edge_names g) x) as [j|] eqn:E3.
    + destruct (lookup (g_edges g) j) as [e|] eqn:E4.
      * split; [intros [= <-]; eauto|]. destruct ne as [m|e']; [intro H; destruct (N _ H)|].
        intros [_ [k [K1 K2]]]. congruence.
      * split; [discriminate|]. destruct ne as [m|e']; [intro H; destruct (N _ H)|]. intros [_ [k [K1 K2]]]. congruence.
    + split; [discriminate|]. destruct ne as [m|e']; [intro H; destruct (N _ H)|]. intros [_ [k [K1 K2]]]. discriminate.
Qed.

(** What one association comes to. *)
Lemma judged rx sc fuel g a ne : wf g -> clear sc -> length (node_names sc) <= fuel -> item g (a_node a) ne ->
  exists d, (match ne with
             | inl n => conforms_node rx sc fuel (a_type a) n
             | inr e => conforms_edge rx sc fuel (a_type a) (lookup (g_nodes g)) e
             end) = Some d /\ (is_right d = true <-> meets rx sc g a).
Proof.
  intros W [Cn Ce] Le I.
  assert (ONE : forall ne', item g (a_node a) ne' -> ne' = ne).
  { intros ne' I'. apply (item_found _ _ _ W) in I. apply (item_found _ _ _ W) in I'. congruence. }
  destruct ne as [n|e].
  - assert (G : good_node n) by (destruct I as [i [_ I]]; now apply (wf_node_ids _ W) in I).
    destruct (lookup (node_names sc) (a_type a)) as [i|] eqn:E1; [destruct (lookup (node_types sc) i) as [s|] eqn:E2|].
    + assert (D : defined sc (a_type a) s) by (exists i; auto). destruct (Cn _ _ D) as (A & S & L & E & K).
      destruct (C59_exact_partial rx sc fuel (a_type a) s n D A S L E K G Le) as [v [H1 H2]]. exists v. split; [exact H1|].
      rewrite H2. split.
      * intro C. exists (inl n). split; [exact I|]. exists s. auto.
      * intros [ne' [I' C]]. rewrite (ONE _ I') in C. destruct C as [s' [D' C]]. destruct D' as [j [J1 J2]]. congruence.
    + unfold conforms_node. rewrite E1, E2. eexists. split; [reflexivity|]. split; [discriminate|].
      intros [ne' [I' C]]. rewrite (ONE _ I') in C. destruct C as [s' [[j [J1 J2]] _]]. congruence.
    + unfold conforms_node. rewrite E1. eexists. split; [reflexivity|]. split; [discriminate|].
      intros [ne' [I' C]]. rewrite (ONE _ I') in C. destruct C as [s' [[j [J1 J2]] _]]. congruence.
  - destruct I as [NN [ei [I1 I2]]].
    destruct (lookup (edge_names sc) (a_type a)) as [i|] eqn:E1; [destruct (lookup (edge_types sc) i) as [et|] eqn:E2|].
    + assert (D : edge_defined sc (a_type a) et) by (exists i; auto). destruct (Ce _ _ D) as (A & S & L).
      destruct (C65_edge_partial rx sc fuel (a_type a) et g ei e W I2 D A S L Le) as [v [H1 H2]]. exists v. split; [exact H1|].
      rewrite H2. split.
      * intro C. exists (inr e). split; [split; [exact NN|eauto]|]. exists et. auto.
      * intros [ne' [I' C]]. rewrite (ONE _ I') in C. destruct C as [s' [D' C]]. destruct D' as [j [J1 J2]]. congruence.
    + unfold conforms_edge. rewrite E1, E2. eexists. split; [reflexivity|]. split; [discriminate|].
      intros [ne' [I' C]]. rewrite (ONE _ I') in C. destruct C as [s' [[j [J1 J2]] _]]. congruence.
    + unfold conforms_edge. rewrite E1. eexists. split; [reflexivity|]. split; [discriminate|].
      intros [ne' [I' C]]. rewrite (ONE _ I') in C. destruct C as [s' [[j [J1 J2]] _]]. congruence.
Qed.

Definition answers (rx : regexes) (sc : schema) (g : pgraph) (a : association) (r : rassociation) : Prop :=
  r_node r = a_node a /\ r_type r = a_type a /\ (r_conforms r = true <-> meets rx sc g a) /\ r_conforms r = is_right (r_details r).

Lemma validate_from_ok rx sc fuel g l acc : wf g -> clear sc -> length (node_names sc) <= fuel ->
  (forall a, In a l -> exists ne, item g (a_node a) ne) ->
  exists v rs, validate_from rx sc fuel g l acc = Some (Ok v) /\ r_associations v = r_associations acc ++ rs /\
    Forall2 (answers rx sc g) l rs /\
    (is_valid v = true <-> is_valid acc = true /\ forall a, In a l -> meets rx sc g a).
Proof.
  intros W C Le. revert acc; induction l as [|a l IH]; intros acc H; cbn [validate_from].
  - exists acc, []. split; [reflexivity|]. split; [now rewrite app_nil_r|]. split; [constructor|].
    split; [intro V; split; [exact V|intros a []]|tauto].
  - destruct (H a (or_introl eq_refl)) as [ne I]. rewrite (proj2 (item_found _ _ _ W) I).
    destruct (judged rx sc fuel g a ne W C Le I) as [d [D J]].
    assert (E : (match ne with inl n => conforms_node rx sc fuel (a_type a) n | inr e => conforms_edge rx sc fuel (a_type a) (lookup (g_nodes g)) e end) = Some d) by exact D.
    rewrite E.
    destruct (IH (add_association acc (mkRassoc (a_node a) (a_type a) (is_right d) d))) as [v [rs [E1 [E2 [F V]]]]].
    { intros b Ib. apply H. now right. }
    exists v, (mkRassoc (a_node a) (a_type a) (is_right d) d :: rs). split; [exact E1|]. split.
    + rewrite E2. cbn [add_association r_associations]. now rewrite <- app_assoc.
    + split; [constructor; [|exact F]; repeat split; auto; apply J|].
      rewrite V. cbn [add_association is_valid r_conforms]. destruct (is_right d) eqn:R.
      * split.
        -- intros [A B]. split; [exact A|]. intros b [<-|Ib]; [now apply J|auto].
        -- intros [A B]. split; [exact A|]. intros b Ib. apply B. now right.
      * split; [intros [A _]; discriminate|]. intros [_ B]. specialize (B a (or_introl eq_refl)). apply J in B. discriminate.
Qed.

(** Validation answers each association in turn, and the whole is valid when all conform. *)
Theorem C65_validate_partial rx sc fuel g l : wf g -> clear sc -> length (node_names sc) <= fuel ->
  (forall a, In a l -> exists ne, item g (a_node a) ne) ->
  exists v, map_validate rx sc fuel g l = Some (Ok v) /\ Forall2 (answers rx sc g) l (r_associations v) /\
    (is_valid v = true <-> forall a, In a l -> meets rx sc g a).
Proof.
  intros W C Le H. destruct (validate_from_ok rx sc fuel g l vresult_new W C Le H) as [v [rs [E1 [E2 [F V]]]]].
  exists v. split; [exact E1|]. cbn in E2. rewrite E2. split; [exact F|]. rewrite V. cbn. tauto.
Qed.
Print Assumptions C65_validate_partial.

(** A name that is not in the graph makes the whole validation fail. *)
Theorem C65_missing rx sc fuel g before a after : wf g -> clear sc -> length (node_names sc) <= fuel ->
  (forall b, In b before -> exists ne, item g (a_node b) ne) -> (forall ne, ~ item g (a_node a) ne) ->
  map_validate rx sc fuel g (before ++ a :: after) = Some (Err (MissingNodeEdgeLabel (a_node a))).
Proof.
  intros W C Le. unfold map_validate. generalize vresult_new. induction before as [|b before IH]; intros acc H N; cbn [app validate_from].
  - destruct (get_node_edge_by_label g (a_node a)) as [ne|e] eqn:E; [|reflexivity].
    destruct (N ne). now apply (item_found _ _ _ W).
  - destruct (H b (or_introl eq_refl)) as [ne I]. rewrite (proj2 (item_found _ _ _ W) I).
    destruct (judged rx sc fuel g b ne W C Le I) as [d [D J]].
    assert (E : (match ne with inl n => conforms_node rx sc fuel (a_type b) n | inr e => conforms_edge rx sc fuel (a_type b) (lookup (g_nodes g)) e end) = Some d) by exact D.
    rewrite E. apply IH; [|exact N]. intros c Ic. apply H. now right.
Qed.
Print Assumptions C65_missing.

Lemma find_consistent l a : consistent l -> In a l -> exists b, find_association l (a_node a) (a_type a) = Some b /\ a_should b = a_should a.
Proof.
  intros C I. unfold find_association. destruct (find _ l) as [b|] eqn:E.
  - exists b. split; [reflexivity|]. apply find_some in E as [Ib E]. apply andb_true_iff in E as [E1 E2].
    apply Nat.eqb_eq in E1, E2. apply C; auto.
  - pose proof (find_none _ _ E a I) as N. cbn in N. rewrite !Nat.eqb_refl in N. discriminate.
Qed.

Lemma compare_from_ok rx sc g l : consistent l -> forall as' rs acc, incl as' l -> Forall2 (answers rx sc g) as' rs ->
  exists fs, compare_from l rs acc = Ok (acc ++ fs) /\
    forall x t, (exists st, In (mkFailed x t st) fs) <->
      exists a, In a as' /\ a_node a = x /\ a_type a = t /\ ~ (a_should a = true <-> meets rx sc g a).
Proof.
  intros C as' rs acc I F. revert acc; induction F as [|a r as' rs A F IH]; intro acc; cbn [compare_from].
  - exists []. split; [now rewrite app_nil_r|]. intros x t. split; [intros [st []]|intros [a [[] _]]].
  - destruct A as (A1 & A2 & A3 & A4). rewrite A1, A2.
    destruct (find_consistent l a C (I a (or_introl eq_refl))) as [b [Fb Sb]]. rewrite Fb, Sb.
    assert (I' : incl as' l) by (intros c Ic; apply I; now right).
    assert (STEP : forall add, (forall x t, (exists st, In (mkFailed x t st) add) <->
                      a_node a = x /\ a_type a = t /\ ~ (a_should a = true <-> meets rx sc g a)) ->
       exists fs, compare_from l rs (acc ++ add) = Ok (acc ++ fs) /\
         forall x t, (exists st, In (mkFailed x t st) fs) <->
           exists c, In c (a :: as') /\ a_node c = x /\ a_type c = t /\ ~ (a_should c = true <-> meets rx sc g c)).
    { intros add Hadd. destruct (IH I' (acc ++ add)) as [fs [E K]]. exists (add ++ fs). split; [now rewrite E, app_assoc|].
      intros x t. split.
      - intros [st H]. apply in_app_or in H as [H|H].
        + exists a. split; [now left|]. apply Hadd. eauto.
        + destruct (proj1 (K x t)) as [c [Ic H']]; [eauto|]. exists c. split; [now right|exact H'].
      - intros [c [[<-|Ic] H]].
        + apply Hadd in H as [st H]. exists st. apply in_or_app. now left.
        + destruct (proj2 (K x t)) as [st H']; [eauto|]. exists st. apply in_or_app. now right. }
    assert (NIL : (a_should a = true <-> meets rx sc g a) ->
       exists fs, compare_from l rs acc = Ok (acc ++ fs) /\
         forall x t, (exists st, In (mkFailed x t st) fs) <->
           exists c, In c (a :: as') /\ a_node c = x /\ a_type c = t /\ ~ (a_should c = true <-> meets rx sc g c)).
    { intro H. destruct (STEP []) as [fs K]; [|rewrite app_nil_r in K; exists fs; exact K].
      intros x t. split; [intros [st []]|]. intros (_ & _ & N). contradiction. }
    assert (ADD : forall s, ~ (a_should a = true <-> meets rx sc g a) -> forall x t,
       (exists st, In (mkFailed x t st) [mkFailed (a_node a) (a_type a) s]) <->
       a_node a = x /\ a_type a = t /\ ~ (a_should a = true <-> meets rx sc g a)).
    { intros s N x t. split; [intros [st [H|[]]]; injection H as -> -> _; auto|]. intros (-> & -> & _). exists s. now left. }
    destruct (a_should a) eqn:S; destruct (r_details r) as [es|ev] eqn:R; cbn [is_right] in A4.
    + apply STEP. apply ADD. rewrite <- A3, A4. intros [H _]. discriminate (H eq_refl).
    + apply NIL. rewrite <- A3, A4. tauto.
    + apply NIL. rewrite <- A3, A4. split; discriminate.
    + apply STEP. apply ADD. rewrite <- A3, A4. intros [_ H]. discriminate (H eq_refl).
Qed.

(** The comparison with what is expected lists exactly the associations that are not as expected. *)
Theorem C65_compare_partial rx sc fuel g l : wf g -> clear sc -> length (node_names sc) <= fuel -> consistent l ->
  (forall a, In a l -> exists ne, item g (a_node a) ne) ->
  exists v fs, map_validate rx sc fuel g l = Some (Ok v) /\ compare_with_result l v = Ok fs /\
    forall x t, (exists st, In (mkFailed x t st) fs) <->
      exists a, In a l /\ a_node a = x /\ a_type a = t /\ ~ (a_should a = true <-> meets rx sc g a).
Proof.
  intros W C Le K H. destruct (C65_validate_partial rx sc fuel g l W C Le H) as [v [E [F _]]].
  destruct (compare_from_ok rx sc g l K l (r_associations v) [] (incl_refl l) F) as [fs [E' Q]].
  exists v, fs. split; [exact E|]. split; [exact E'|exact Q].
Qed.
Print Assumptions C65_compare_partial.

Definition one_schema : schema := add_node_spec schema_new 31 (LLabel 11).
Definition one_graph : pgraph := mkPg [(0, mkNode [11] [])] [] [(1, 0)] [] 1 0.

Lemma one_clear : clear one_schema.
Proof.
  split.
  - intros t s [i [E1 E2]]. cbn in E1. destruct (t =? 31); [|discriminate]. injection E1 as <-. cbn in E2. injection E2 as <-.
    split; [constructor|]. split; [constructor|]. split; [constructor|]. split; [constructor|]. intros u B. inversion B.
  - intros t et [i [E1 E2]]. discriminate.
Qed.

Lemma one_wf : wf one_graph.
Proof. apply (C63_well_formed [SNode 1 [11] []]). reflexivity. Qed.

(** A type map with an expected failure is never valid: the result does not look at what
    was expected. *)
Theorem C65_expected_refuted : exists sc g l, wf g /\ clear sc /\ consistent l /\
  forall rx, exists v, map_validate rx sc 1 g l = Some (Ok v) /\ compare_with_result l v = Ok [] /\ is_valid v = false.
Proof.
  exists (add_node_spec schema_new 31 (LLabel 12)), one_graph, [mkAssoc 1 31 false].
  split; [apply one_wf|]. split.
  { split.
    - intros t s [i [E1 E2]]. cbn in E1. destruct (t =? 31); [|discriminate]. injection E1 as <-. cbn in E2. injection E2 as <-.
      split; [constructor|]. split; [constructor|]. split; [constructor|]. split; [constructor|]. intros u B. inversion B.
    - intros t et [i [E1 E2]]. discriminate. }
  split; [intros a b [<-|[]] [<-|[]] _ _; reflexivity|]. intro rx. eexists. split; [reflexivity|]. split; reflexivity.
Qed.
Print Assumptions C65_expected_refuted.

(** Asked for in opposite ways, only the first is looked at: the second is not as expected
    and not reported. *)
Theorem C65_opposite_refuted : exists sc g l a, wf g /\ clear sc /\ In a l /\ a_should a = false /\
  forall rx, meets rx sc g a /\ exists v, map_validate rx sc 1 g l = Some (Ok v) /\ compare_with_result l v = Ok [].
Proof.
  exists one_schema, one_graph, [mkAssoc 1 31 true; mkAssoc 1 31 false], (mkAssoc 1 31 false).
  split; [apply one_wf|]. split; [apply one_clear|].
  split; [right; now left|]. split; [reflexivity|]. intro rx. split; [|eexists; split; reflexivity]. exists (inl (mkNode [11] [])). split; [exists 0; split; reflexivity|].
  exists (LLabel 11). split; [exists 0; split; reflexivity|]. eexists. split; [constructor|]. split.
  - split; [cbn; tauto|]. right. cbn. tauto.
  - split; [intros k u []|]. right. intros k [vs []].
Qed.
Print Assumptions C65_opposite_refuted.

(** An edge with the name of a node cannot be validated: the node is taken for it. *)
Theorem C65_hidden_refuted : exists ss g sc t et i e, parse_pg ss = Ok g /\ NoDup (node_ids ss) /\
  lookup (g_edge_names g) 1 = Some i /\ lookup (g_edges g) i = Some e /\ edge_defined sc t et /\
  forall rx, edge_conforming rx sc g et e /\
    exists v, map_validate rx sc 1 g [mkAssoc 1 t true] = Some (Ok v) /\ is_valid v = false.
Proof.
  exists [SNode 1 [11] []; SEdge (Some 1) 1 1 [12] []]. eexists.
  exists (mkSchema [] [(0, mkEtype (LLabel 11) (LLabel 12) (LLabel 11))] [] [(32, 0)] 0 1), 32, (mkEtype (LLabel 11) (LLabel 12) (LLabel 11)), 0, (mkEdge 0 0 [12] []).
  split; [reflexivity|]. split; [repeat constructor; auto|]. split; [reflexivity|]. split; [reflexivity|].
  split; [exists 0; split; reflexivity|]. intro rx. split; [|eexists; split; reflexivity].
  assert (ONE : forall sc l, conforming rx sc (LLabel l) (mkNode [l] [])).
  { intros sc l. eexists. split; [constructor|]. split; [split; [cbn; tauto|right; cbn; tauto]|].
    split; [intros k u []|right; intros k [vs []]]. }
  exists (mkNode [11] []), (mkNode [11] []). split; [reflexivity|]. split; [reflexivity|]. cbn. auto.
Qed.
Print Assumptions C65_hidden_refuted.

Definition ex_pg : pgraph := mkPg [(0, mkNode [11] []); (1, mkNode [12] [])] [(0, mkEdge 0 1 [13] [])] [(1, 0); (2, 1)] [(5, 0)] 2 1.
Definition ex_sc : schema :=
  mkSchema [(0, LLabel 11)] [(0, mkEtype (LRef 31) (LLabel 13) (LLabel 12))] [(31, 0)] [(41, 0)] 1 1.
Lemma ex_clear : clear ex_sc.
Proof.
  assert (L : forall l, clear_type ex_sc (LLabel l)).
  { intro l. split; [constructor|]. split; [constructor|]. split; [constructor|]. split; [constructor|]. intros u B. inversion B. }
  assert (D : forall t s, defined ex_sc t s -> s = LLabel 11).
  { intros t s [i [E1 E2]]. cbn in E1. destruct (t =? 31); [|discriminate]. injection E1 as <-. cbn in E2. now injection E2 as <-. }
  assert (D31 : defined ex_sc 31 (LLabel 11)) by (exists 0; split; reflexivity).
  split.
  - intros t s H. rewrite (D _ _ H). apply L.
  - intros t et [i [E1 E2]]. cbn in E1. destruct (t =? 41); [|discriminate]. injection E1 as <-. cbn in E2. injection E2 as <-.
    cbn [et_source et_edge et_target]. split; [|split; apply L].
    assert (ALL : forall P : spec -> Prop, P (LLabel 11) -> forall s, defined ex_sc 31 s -> P s).
    { intros P HP s H. rewrite (D _ _ H). exact HP. }
    destruct (L 11) as (A1 & A2 & A3 & A4 & A5).
    split; [constructor; now apply ALL|]. split; [constructor; now apply ALL|]. split; [constructor; now apply ALL|].
    split; [constructor; now apply ALL|]. intros u B. inversion B as [|? ? ? H1 H2| | | | | | |]; subst; [eauto|].
    rewrite (D _ _ H1) in H2. inversion H2.
Qed.
Example C65_met : wf ex_pg /\ clear ex_sc /\ length (node_names ex_sc) <= 1 /\
  consistent [mkAssoc 1 31 true; mkAssoc 5 41 true; mkAssoc 2 31 false] /\
  (forall a, In a [mkAssoc 1 31 true; mkAssoc 5 41 true; mkAssoc 2 31 false] -> exists ne, item ex_pg (a_node a) ne) /\
  forall rx, exists v, map_validate rx ex_sc 1 ex_pg [mkAssoc 1 31 true; mkAssoc 5 41 true; mkAssoc 2 31 false] = Some (Ok v) /\
    map r_conforms (r_associations v) = [true; true; false] /\
    compare_with_result [mkAssoc 1 31 true; mkAssoc 5 41 true; mkAssoc 2 31 false] v = Ok [].
Proof.
  assert (W : wf ex_pg) by (apply (C63_well_formed [SNode 1 [11] []; SNode 2 [12] []; SEdge (Some 5) 1 2 [13] []]); reflexivity).
  split; [exact W|]. split; [apply ex_clear|]. split; [cbn; lia|]. split; [|split].
  - intros a b [<-|[<-|[<-|[]]]] [<-|[<-|[<-|[]]]] E1 E2; cbn in *; congruence.
  - intros a [<-|[<-|[<-|[]]]]; eexists; apply (item_found _ _ _ W); reflexivity.
  - intro rx. eexists. split; [reflexivity|]. split; reflexivity.
Qed.
