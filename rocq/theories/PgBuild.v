(** Graphs built from statements. *)
From Coq Require Import List Bool Arith Sorted Lia.
Import ListNotations.
From Verif Require Import PgsModel PgsSpec PgsLemmas PgsMain PgModel PgSpec PgLemmas.

Lemma get_statements_snoc s rest g g' :
  get_statements (s :: rest) g = Ok g' <-> exists g1, get_statement s g = (g1, Ok tt) /\ get_statements rest g1 = Ok g'.
Proof.
  cbn [get_statements]. destruct (get_statement s g) as [g1 [[]|e]].
  - split; [eauto|]. intros [g2 [E H]]. injection E as <-. exact H.
  - split; [discriminate|]. intros [g2 [E _]]. discriminate.
Qed.

Lemma get_statement_wf s g g1 : wf g -> get_statement s g = (g1, Ok tt) -> wf g1.
Proof.
  intros W. destruct s as [x ls ps|x src tgt ls ps]; cbn [get_statement]; intro H.
  - injection H as <-. apply wf_add_node; [exact W|apply get_properties_given].
  - eapply add_edge_ok in H; [apply H|exact W|apply get_properties_given].
Qed.

Lemma get_statements_wf ss g g' : wf g -> get_statements ss g = Ok g' -> wf g'.
Proof.
  revert g; induction ss as [|s rest IH]; intros g W.
  - cbn. now intros [= <-].
  - rewrite get_statements_snoc. intros [g1 [E H]]. eapply IH; [|exact H]. eapply get_statement_wf; eassumption.
Qed.

(** ** When it succeeds *)

Definition ready (g : pgraph) (ss : list statement) : Prop :=
  forall before x s t ls ps after, ss = before ++ SEdge x s t ls ps :: after ->
    (lookup (g_node_names g) s <> None \/ declares before s) /\
    (lookup (g_node_names g) t <> None \/ declares before t).

Lemma ready_node g x ls ps rest :
  ready g (SNode x ls ps :: rest) <-> ready (add_node g x ls (get_properties ps)) rest.
Proof.
  assert (L : forall s before, (lookup (g_node_names (add_node g x ls (get_properties ps))) s <> None \/ declares before s) <->
                (lookup (g_node_names g) s <> None \/ declares (SNode x ls ps :: before) s)).
  { intros s before. cbn [add_node g_node_names]. rewrite lookup_put. unfold declares. destruct (Nat.eqb_spec s x) as [->|N].
    - split; intros _; [right; exists ls, ps; now left|left; discriminate].
    - split; (intros [H|[ls' [ps' H]]]; [auto|right; exists ls', ps']); [now right|].
      destruct H as [H|H]; [injection H as H; congruence|exact H]. }
  split; intros H before y s t ls' ps' after E.
  - destruct (H (SNode x ls ps :: before) y s t ls' ps' after) as [A B]; [now rewrite E|].
    split; apply L; assumption.
  - destruct before as [|b before]; [discriminate|]. injection E as <- E.
    destruct (H before y s t ls' ps' after E) as [A B]. split; apply L; assumption.
Qed.

Lemma ready_edge g g1 x s t ls ps rest :
  g_node_names g1 = g_node_names g ->
  (ready g (SEdge x s t ls ps :: rest) <->
   (lookup (g_node_names g) s <> None /\ lookup (g_node_names g) t <> None) /\ ready g1 rest).
Proof.
  intro E. assert (D : forall before z, declares (SEdge x s t ls ps :: before) z <-> declares before z).
  { intros before z. unfold declares. split; intros [ls' [ps' H]]; exists ls', ps'; [destruct H as [H|H]; [discriminate|exact H]|now right]. }
  unfold ready. rewrite E. split.
  - intro H. split.
    + destruct (H [] x s t ls ps rest eq_refl) as [A B]. unfold declares in A, B. cbn in A, B.
      split; [destruct A as [A|[? [? []]]]|destruct B as [B|[? [? []]]]]; assumption.
    + intros before y s' t' ls' ps' after F. destruct (H (SEdge x s t ls ps :: before) y s' t' ls' ps' after) as [A B]; [now rewrite F|].
      rewrite D in A, B. auto.
  - intros [[A B] H] before y s' t' ls' ps' after F. destruct before as [|b before].
    + injection F as <- <- <- <- <- <-. auto.
    + injection F as <- F. rewrite !D. eapply H, F.
Qed.

Lemma get_statements_ready ss g : (exists g', get_statements ss g = Ok g') <-> ready g ss.
Proof.
  revert g; induction ss as [|s rest IH]; intro g.
  - split; [|cbn; eauto]. intros _ before x s t ls ps after E. destruct before; discriminate.
  - destruct s as [x ls ps|x s t ls ps].
    + rewrite ready_node, <- IH. cbn [get_statements get_statement]. tauto.
    + cbn [get_statements get_statement].
      destruct (add_edge g x s ls (get_properties ps) t) as [g1 [[]|e]] eqn:A.
      * rewrite (ready_edge g g1), <- IH; [|unfold add_edge, get_node_id in A; cbn [g_node_names] in A;
          destruct (lookup (g_node_names g) s); destruct (lookup (g_node_names g) t); injection A as <-; try reflexivity; discriminate].
        assert (O : exists g', add_edge g x s ls (get_properties ps) t = (g', Ok tt)) by eauto.
        apply add_edge_err in O. tauto.
      * split; [intros [g' H]; discriminate|]. intro H. apply (ready_edge g g) in H as [H _]; [|reflexivity].
        apply (add_edge_err g x s ls (get_properties ps) t) in H as [g' H]. congruence.
Qed.

(** ** What it builds *)

Lemma names_after ss g g' x : get_statements ss g = Ok g' -> ~ In x (node_ids ss) ->
  lookup (g_node_names g') x = lookup (g_node_names g) x.
Proof.
  revert g; induction ss as [|s rest IH]; intros g.
  - cbn. now intros [= <-].
  - rewrite get_statements_snoc. intros [g1 [E H]] N. destruct s as [y ls ps|y s t ls ps]; cbn [node_ids get_statement] in *.
    + injection E as <-. rewrite (IH _ H) by (intro I; apply N; now right). cbn [add_node g_node_names].
      rewrite lookup_put. destruct (Nat.eqb_spec x y) as [->|]; [destruct N; now left|reflexivity].
    + rewrite (IH _ H N). unfold add_edge, get_node_id in E. cbn [g_node_names] in E.
      destruct (lookup (g_node_names g) s); destruct (lookup (g_node_names g) t); try discriminate. now injection E as <-.
Qed.

Lemma nodes_after ss g g' i n : wf g -> get_statements ss g = Ok g' -> lookup (g_nodes g) i = Some n ->
  lookup (g_nodes g') i = Some n.
Proof.
  revert g; induction ss as [|s rest IH]; intros g W.
  - cbn. now intros [= <-].
  - rewrite get_statements_snoc. intros [g1 [E H]] L.
    apply (IH g1); [eapply get_statement_wf; eassumption|exact H|].
    destruct s as [y ls ps|y s t ls ps]; cbn [get_statement] in E.
    + injection E as <-. cbn [add_node g_nodes]. rewrite lookup_put.
      destruct (Nat.eqb_spec i (g_node_counter g)) as [->|]; [|exact L]. rewrite fresh_node in L by exact W. discriminate.
    + apply add_edge_ok in E as [_ [E _]]; [now rewrite E|exact W|apply get_properties_given].
Qed.

Definition unnamed_in (g : pgraph) (ss : list statement) : Prop :=
  forall x, In x (node_ids ss) -> lookup (g_node_names g) x = None.

Lemma built_nodes ss g g' x ls ps : wf g -> get_statements ss g = Ok g' -> NoDup (node_ids ss) ->
  In (SNode x ls ps) ss -> exists n, named g' x n /\ node_of ls ps n.
Proof.
  revert g; induction ss as [|s rest IH]; intros g W; [intros _ _ []|].
  rewrite get_statements_snoc. intros [g1 [E H]] N I. assert (W1 : wf g1) by (eapply get_statement_wf; eassumption).
  destruct I as [->|I].
  - cbn [node_ids get_statement] in *. apply NoDup_cons_iff in N as [N0 N]. injection E as <-.
    exists (mkNode (labels_from ls) (get_properties ps)). split.
    + exists (g_node_counter g). split.
      * rewrite (names_after _ _ _ _ H N0). cbn [add_node g_node_names]. now rewrite lookup_put, Nat.eqb_refl.
      * eapply nodes_after; [exact W1|exact H|]. cbn [add_node g_nodes]. now rewrite lookup_put, Nat.eqb_refl.
    + split; [intro l; apply labels_from_in|apply get_properties_given].
  - apply (IH g1 W1 H); [|exact I]. destruct s as [y ls' ps'|]; cbn [node_ids] in N; [now apply NoDup_cons_iff in N|exact N].
Qed.

Lemma built_edges ss g g' : wf g -> get_statements ss g = Ok g' -> NoDup (node_ids ss) -> unnamed_in g ss ->
  exists es, g_edges g' = g_edges g ++ es /\ Forall2 (fun s ie => edge_of g' s (snd ie)) (edge_statements ss) es.
Proof.
  revert g; induction ss as [|s rest IH]; intros g W.
  - cbn. intros [= <-] _ _. exists []. split; [now rewrite app_nil_r|constructor].
  - rewrite get_statements_snoc. intros [g1 [E H]] N U. assert (W1 : wf g1) by (eapply get_statement_wf; eassumption).
    destruct s as [y ls ps|y s t ls ps]; cbn [node_ids edge_statements get_statement] in *.
    + apply NoDup_cons_iff in N as [N0 N]. injection E as <-. apply (IH _ W1 H N).
      intros x I. cbn [add_node g_node_names]. rewrite lookup_put. destruct (Nat.eqb_spec x y) as [->|]; [contradiction|].
      apply U. now right.
    + apply add_edge_ok in E as (_ & En & Enn & _ & si & ti & Es & Et & Ee); [|exact W|apply get_properties_given].
      destruct (IH _ W1 H N) as [es [E1 F]].
      { intros x I. rewrite Enn. apply U, I. }
      exists ((g_edge_counter g, mkEdge si ti (labels_from ls) (get_properties ps)) :: es). split.
      * rewrite E1, Ee, <- app_assoc. reflexivity.
      * constructor; [|exact F]. cbn [edge_of snd e_source e_target e_labels e_content].
        assert (K : forall z j, lookup (g_node_names g) z = Some j -> lookup (g_node_names g') z = Some j).
        { intros z j L. rewrite (names_after _ _ _ z H); [now rewrite Enn|]. intro I. rewrite (U z I) in L. discriminate. }
        split; [auto|]. split; [auto|]. split; [intro l; apply labels_from_in|apply get_properties_given].
Qed.

(** Names that are not taken twice keep every end of an edge named. *)
Lemma built_named ss g g' : wf g -> all_named g -> get_statements ss g = Ok g' -> NoDup (node_ids ss) -> unnamed_in g ss ->
  all_named g'.
Proof.
  intros W A H N U. destruct (built_edges ss g g' W H N U) as [es [E F]].
  intros i e L. apply lookup_in in L. rewrite E in L. apply in_app_or in L as [L|L].
  - assert (L' : lookup (g_edges g) i = Some e) by (apply lookup_nodup; [apply W|exact L]).
    destruct (A i e L') as [[x X] [y Y]].
    split; [exists x|exists y]; (rewrite (names_after _ _ _ _ H); [assumption|]); intro I; rewrite (U _ I) in *; discriminate.
  - assert (K : exists s, In s (edge_statements ss) /\ edge_of g' s e).
    { clear - F L. revert F. generalize (edge_statements ss). intros sts F. induction F as [|s ie sts es O F IH]; [destruct L|]. destruct L as [->|L].
      - exists s. split; [now left|exact O].
      - destruct (IH L) as [s' [I O']]. exists s'. split; [now right|exact O']. }
    destruct K as [s [_ O]]. destruct s as [|x src tgt ls ps]; [destruct O|].
    destruct O as [O1 [O2 _]]. split; eauto.
Qed.
