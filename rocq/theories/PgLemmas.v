(** Lemmas about building and merging property graphs. *)
From Coq Require Import List Bool Arith Sorted Lia.
Import ListNotations.
From Verif Require Import PgsModel PgsSpec PgsLemmas PgsMain PgModel PgSpec.

(** ** Records *)

Lemma has_lookup r k : has r k <-> lookup r k <> None.
Proof.
  rewrite lookup_none. unfold has. split.
  - intros [vs H] N. apply N. now apply (in_map fst) in H.
  - intro N. destruct (in_dec Nat.eq_dec k (map fst r)) as [I|I]; [|destruct (N I)].
    apply in_map_iff in I as [[k' vs] [E I]]. cbn in E; subst. now exists vs.
Qed.

Lemma holds_lookup r k v : good_record r -> (holds r k v <-> exists vs, lookup r k = Some vs /\ In v vs).
Proof.
  intro G. unfold holds. split; intros [vs [H I]]; exists vs; (split; [|exact I]); now apply (lookup_nodup r k vs G).
Qed.

Lemma value_add_in vs v x : In x (value_add vs v) <-> In x vs \/ x = v.
Proof.
  unfold value_add. destruct (existsb (value_eqb v) vs) eqn:E.
  - apply existsb_exists in E as [w [I E]]. apply value_eqb_eq in E. subst w. split; [auto|]. intros [H| ->]; auto.
  - rewrite in_app_iff. cbn [In]. intuition.
Qed.

Lemma values_extend_in ws vs x : In x (values_extend vs ws) <-> In x vs \/ In x ws.
Proof.
  unfold values_extend. revert vs; induction ws as [|w ws IH]; intro vs; cbn [fold_left In]; [tauto|].
  rewrite IH, value_add_in. intuition.
Qed.

Lemma record_insert_good r k v : good_record r -> good_record (record_insert r k v).
Proof.
  intro G. unfold record_insert, good_record. destruct (lookup r k); apply put_nodup, G.
Qed.

Lemma record_insert_holds r k v k' v' :
  good_record r -> (holds (record_insert r k v) k' v' <-> holds r k' v' \/ k' = k /\ v' = v).
Proof.
  intro G. rewrite !holds_lookup by auto using record_insert_good. unfold record_insert.
  destruct (lookup r k) as [vs|] eqn:E.
  - rewrite lookup_put. destruct (Nat.eqb_spec k' k) as [->|N].
    + split.
      * intros [ws [[= <-] H]]. apply value_add_in in H as [H|H]; [left; eauto|auto].
      * intros [[ws [E' H]]|[_ ->]]; eexists; (split; [reflexivity|]); apply value_add_in; [left; congruence|auto].
    + split; [auto|]. intros [H|[H _]]; [exact H|contradiction].
  - rewrite lookup_put. destruct (Nat.eqb_spec k' k) as [->|N].
    + split.
      * intros [ws [[= <-] [H|[]]]]. auto.
      * intros [[ws [E' H]]|[_ ->]]; [congruence|]. eexists. split; [reflexivity|now left].
    + split; [auto|]. intros [H|[H _]]; [exact H|contradiction].
Qed.

Lemma record_insert_has r k v k' : has (record_insert r k v) k' <-> has r k' \/ k' = k.
Proof.
  rewrite !has_lookup. unfold record_insert.
  destruct (lookup r k) as [vs|] eqn:E; rewrite lookup_put; destruct (Nat.eqb_spec k' k) as [->|N];
    split; try tauto; try discriminate; intros _; try discriminate; auto.
Qed.

Lemma insert_values_good r k ws : good_record r -> good_record (insert_values r k ws).
Proof.
  intro G. unfold insert_values, good_record. destruct (lookup r k); apply put_nodup, G.
Qed.

Lemma insert_values_holds r k ws k' v' :
  good_record r -> (holds (insert_values r k ws) k' v' <-> holds r k' v' \/ k' = k /\ In v' ws).
Proof.
  intro G. rewrite !holds_lookup by auto using insert_values_good. unfold insert_values.
  destruct (lookup r k) as [vs|] eqn:E.
  - rewrite lookup_put. destruct (Nat.eqb_spec k' k) as [->|N].
    + split.
      * intros [us [[= <-] H]]. apply values_extend_in in H as [H|H]; [left; eauto|auto].
      * intros [[us [E' H]]|[_ H]]; eexists; (split; [reflexivity|]); apply values_extend_in; [left; congruence|auto].
    + split; [auto|]. intros [H|[H _]]; [exact H|contradiction].
  - rewrite lookup_put. destruct (Nat.eqb_spec k' k) as [->|N].
    + split.
      * intros [us [[= <-] H]]. apply values_extend_in in H as [[]|H]. auto.
      * intros [[us [E' H]]|[_ H]]; [congruence|]. eexists. split; [reflexivity|]. apply values_extend_in. auto.
    + split; [auto|]. intros [H|[H _]]; [exact H|contradiction].
Qed.

Lemma insert_values_has r k ws k' : has (insert_values r k ws) k' <-> has r k' \/ k' = k.
Proof.
  rewrite !has_lookup. unfold insert_values.
  destruct (lookup r k) as [vs|] eqn:E; rewrite lookup_put; destruct (Nat.eqb_spec k' k) as [->|N];
    split; try tauto; try discriminate; intros _; try discriminate; auto.
Qed.

Lemma get_properties_from ps r : good_record r ->
  good_record (fold_left (fun r kv => insert_values r (fst kv) (values_extend [] (snd kv))) ps r) /\
  (forall k v, holds (fold_left (fun r kv => insert_values r (fst kv) (values_extend [] (snd kv))) ps r) k v <->
     holds r k v \/ exists vs, In (k, vs) ps /\ In v vs) /\
  (forall k, has (fold_left (fun r kv => insert_values r (fst kv) (values_extend [] (snd kv))) ps r) k <->
     has r k \/ In k (map fst ps)).
Proof.
  revert r; induction ps as [|[k0 ws] ps IH]; intros r G; cbn [fold_left map fst snd].
  - split; [exact G|]. split.
    + intros k v. split; [auto|]. intros [H|[vs [[] _]]]. exact H.
    + intro k. cbn [In]. tauto.
  - destruct (IH (insert_values r k0 (values_extend [] ws)) (insert_values_good _ _ _ G)) as [G' [H1 H2]].
    split; [exact G'|]. split.
    + intros k v. rewrite H1, insert_values_holds by exact G. split.
      * intros [[H|[-> H]]|[vs [I H]]]; [auto| |right; exists vs; split; [now right|exact H]].
        apply values_extend_in in H as [[]|H]. right. exists ws. split; [now left|exact H].
      * intros [H|[vs [[E|I] H]]]; [auto| |right; eauto].
        injection E as -> ->. left. right. split; [reflexivity|]. apply values_extend_in. auto.
    + intro k. rewrite H2, insert_values_has. cbn [In]. intuition.
Qed.

Lemma get_properties_given ps : given ps (get_properties ps).
Proof.
  destruct (get_properties_from ps [] ltac:(constructor)) as [G [H1 H2]]. split; [exact G|]. split.
  - intros k v. unfold get_properties. rewrite H1. split; [|auto]. intros [[vs [[] _]]|H]. exact H.
  - intro k. unfold get_properties. rewrite H2. split; [|auto]. intros [[vs []]|H]. exact H.
Qed.

(** ** Merging two nodes *)

Lemma insert_all_ok k vs r : good_record r ->
  good_record (fold_left (fun r v => record_insert r k v) vs r) /\
  (forall k' v', holds (fold_left (fun r v => record_insert r k v) vs r) k' v' <-> holds r k' v' \/ k' = k /\ In v' vs) /\
  (forall k', has (fold_left (fun r v => record_insert r k v) vs r) k' <-> has r k' \/ k' = k /\ exists v, In v vs).
Proof.
  revert r; induction vs as [|v vs IH]; intros r G; cbn [fold_left].
  - split; [exact G|]. split.
    + intros k' v'. cbn [In]. tauto.
    + intro k'. split; [auto|]. intros [H|[_ [v []]]]. exact H.
  - destruct (IH (record_insert r k v) (record_insert_good _ _ _ G)) as [G' [H1 H2]].
    split; [exact G'|]. split.
    + intros k' v'. rewrite H1, record_insert_holds by exact G. cbn [In]. intuition.
    + intro k'. rewrite H2, record_insert_has. split.
      * intros [[H|H]|[-> [w H]]]; [auto|right; split; [exact H|exists v; now left]|right; split; [auto|exists w; now right]].
      * intros [H|[-> _]]; auto.
Qed.

Lemma merge_records_ok rs r : good_record r ->
  let m := fold_left (fun r kv => fold_left (fun r v => record_insert r (fst kv) v) (snd kv) r) rs r in
  good_record m /\
  (forall k v, holds m k v <-> holds r k v \/ holds rs k v) /\
  (forall k, has m k <-> has r k \/ exists v, holds rs k v).
Proof.
  revert r; induction rs as [|[k0 vs] rs IH]; intros r G; cbn [fold_left fst snd]; cbv zeta.
  - split; [exact G|]. split.
    + intros k v. split; [auto|]. intros [H|[vs [[] _]]]. exact H.
    + intros k. split; [auto|]. intros [H|[v [vs [[] _]]]]. exact H.
  - destruct (insert_all_ok k0 vs r G) as [G0 [A1 A2]].
    destruct (IH _ G0) as [G' [H1 H2]]. split; [exact G'|].
    assert (C : forall k v, holds ((k0, vs) :: rs) k v <-> (k = k0 /\ In v vs) \/ holds rs k v).
    { intros k v. split.
      - intros [ws [[E|I] H]]; [injection E as -> ->; auto|right; exists ws; auto].
      - intros [[-> H]|[ws [I H]]]; [exists vs; split; [now left|exact H]|exists ws; split; [now right|exact H]]. }
    split.
    + intros k v. rewrite H1, A1, C. tauto.
    + intro k. rewrite H2, A2. split.
      * intros [[H|[-> [v H]]]|[v H]]; [auto|right; exists v; apply C; auto|right; exists v; apply C; auto].
      * intros [H|[v H]]; [auto|]. apply C in H as [[-> H]|H]; eauto.
Qed.

Lemma node_merge_joined a b : good_node a -> joined a b (node_merge a b).
Proof.
  intros [_ G]. destruct (merge_records_ok (n_content b) (n_content a) G) as [_ [H1 H2]].
  split; [intro l; apply label_extend_in|]. split; [exact H1|exact H2].
Qed.

Lemma node_merge_good a b : good_node a -> good_node (node_merge a b).
Proof.
  intros [S G]. split; [apply label_extend_sorted, S|]. apply (merge_records_ok (n_content b) (n_content a) G).
Qed.

(** ** Adding *)

Lemma wf_new : wf pg_new.
Proof. split; cbn; try constructor; discriminate. Qed.

Lemma labels_from_in ls l : In l (labels_from ls) <-> In l ls.
Proof. unfold labels_from. rewrite label_extend_in. cbn. tauto. Qed.

Lemma labels_from_sorted ls : StronglySorted lt (labels_from ls).
Proof. apply label_extend_sorted. constructor. Qed.

Lemma fresh_node g : wf g -> lookup (g_nodes g) (g_node_counter g) = None.
Proof.
  intro W. destruct (lookup (g_nodes g) (g_node_counter g)) eqn:E; [|reflexivity].
  apply (wf_node_ids _ W) in E as [E _]. lia.
Qed.

Lemma fresh_edge g : wf g -> lookup (g_edges g) (g_edge_counter g) = None.
Proof.
  intro W. destruct (lookup (g_edges g) (g_edge_counter g)) eqn:E; [|reflexivity].
  apply (wf_edge_ids _ W) in E as [E _]. lia.
Qed.

Ltac cases_put :=
  repeat match goal with
  | H : lookup (put _ _ _) _ = _ |- _ => rewrite lookup_put in H
  | |- context [lookup (put _ _ _) _] => rewrite lookup_put
  | H : context [?a =? ?b] |- _ => destruct (Nat.eqb_spec a b); [subst|]
  | |- context [?a =? ?b] => destruct (Nat.eqb_spec a b); [subst|]
  | H : Some _ = Some _ |- _ => injection H as H; try subst
  end.

Lemma name_below g x i : wf g -> lookup (g_node_names g) x = Some i -> i < g_node_counter g.
Proof. intros W H. apply (wf_name _ W) in H as [n H]. now apply (wf_node_ids _ W) in H. Qed.

(** A node put at a new place under a name. *)
Lemma wf_put_node g x n : wf g -> good_node n ->
  wf (mkPg (put (g_nodes g) (g_node_counter g) n) (g_edges g) (put (g_node_names g) x (g_node_counter g))
           (g_edge_names g) (S (g_node_counter g)) (g_edge_counter g)).
Proof.
  intros W G. split; cbn [g_nodes g_edges g_node_names g_edge_names g_node_counter g_edge_counter].
  - apply put_nodup, W.
  - apply W.
  - apply put_nodup, W.
  - apply W.
  - intros i m H. cases_put; [split; [lia|exact G]|]. apply (wf_node_ids _ W) in H as [H ?]. split; [lia|auto].
  - apply W.
  - intros y i H. rewrite lookup_put in H. rewrite lookup_put. destruct (Nat.eqb_spec y x) as [->|N].
    + injection H as <-. rewrite Nat.eqb_refl. eauto.
    + destruct (i =? g_node_counter g); [eauto|]. now apply (wf_name _ W) in H.
  - intros y z i H K. rewrite lookup_put in H, K.
    destruct (Nat.eqb_spec y x) as [->|Ny]; destruct (Nat.eqb_spec z x) as [->|Nz]; [reflexivity| | |].
    + injection H as <-. apply (name_below _ _ _ W) in K. lia.
    + injection K as <-. apply (name_below _ _ _ W) in H. lia.
    + eapply (wf_once _ W); eassumption.
  - intros i e H. rewrite lookup_put. destruct (_ =? _); [eauto|]. eapply (wf_source _ W), H.
  - intros i e H. rewrite lookup_put. destruct (_ =? _); [eauto|]. eapply (wf_target _ W), H.
  - apply W.
Qed.

Lemma wf_add_node g x ls r : wf g -> good_record r -> wf (add_node g x ls r).
Proof. intros W G. apply wf_put_node; [exact W|]. split; [apply labels_from_sorted|exact G]. Qed.

(** An edge put at a new place, with any names for it. *)
Lemma wf_put_edge g names e : wf g -> NoDup (map fst names) ->
  (forall x i, lookup names x = Some i -> i < S (g_edge_counter g)) ->
  good_node (mkNode (e_labels e) (e_content e)) ->
  (exists n, lookup (g_nodes g) (e_source e) = Some n) -> (exists n, lookup (g_nodes g) (e_target e) = Some n) ->
  wf (mkPg (g_nodes g) (put (g_edges g) (g_edge_counter g) e) (g_node_names g) names
           (g_node_counter g) (S (g_edge_counter g))).
Proof.
  intros W N B G Hs Ht. split; cbn [g_nodes g_edges g_node_names g_edge_names g_node_counter g_edge_counter]; try apply W.
  - apply put_nodup, W.
  - exact N.
  - intros i e' H. rewrite lookup_put in H. destruct (Nat.eqb_spec i (g_edge_counter g)) as [->|D].
    + injection H as <-. split; [lia|exact G].
    + apply (wf_edge_ids _ W) in H as [H ?]. split; [lia|auto].
  - intros i e' H. rewrite lookup_put in H. destruct (Nat.eqb_spec i (g_edge_counter g)) as [->|D].
    + injection H as <-. exact Hs.
    + apply (wf_source _ W) in H. exact H.
  - intros i e' H. rewrite lookup_put in H. destruct (Nat.eqb_spec i (g_edge_counter g)) as [->|D].
    + injection H as <-. exact Ht.
    + apply (wf_target _ W) in H. exact H.
  - exact B.
Qed.

Lemma put_fresh {A} (m : list (name * A)) k x : lookup m k = None -> put m k x = m ++ [(k, x)].
Proof.
  induction m as [|[k' y] m IH]; cbn [lookup put app]; [reflexivity|].
  destruct (Nat.eqb_spec k k'); [discriminate|]. intro H. now rewrite IH.
Qed.

Lemma add_edge_ok g x s ls r t g' : wf g -> good_record r -> add_edge g x s ls r t = (g', Ok tt) ->
  wf g' /\ g_nodes g' = g_nodes g /\ g_node_names g' = g_node_names g /\
  g_edge_names g' = put (g_edge_names g) (match x with Some x => x | None => no_name end) (g_edge_counter g) /\
  exists si ti, lookup (g_node_names g) s = Some si /\ lookup (g_node_names g) t = Some ti /\
    g_edges g' = g_edges g ++ [(g_edge_counter g, mkEdge si ti (labels_from ls) r)].
Proof.
  intros W G. unfold add_edge, get_node_id. cbn [g_nodes g_edges g_node_names g_edge_names g_node_counter g_edge_counter].
  destruct (lookup (g_node_names g) s) as [si|] eqn:Es; [|discriminate].
  destruct (lookup (g_node_names g) t) as [ti|] eqn:Et; [|discriminate].
  intros [= <-]. split.
  - apply wf_put_edge; auto.
    + apply put_nodup, W.
    + intros y i H. rewrite lookup_put in H. destruct (y =? _); [injection H as <-; lia|].
      apply (wf_edge_name _ W) in H. lia.
    + split; [apply labels_from_sorted|exact G].
    + eapply (wf_name _ W), Es.
    + eapply (wf_name _ W), Et.
  - cbn. split; [reflexivity|]. split; [reflexivity|]. split; [reflexivity|]. exists si, ti. split; [reflexivity|]. split; [reflexivity|].
    now rewrite put_fresh by (apply fresh_edge, W).
Qed.

Lemma add_edge_err g x s ls r t : 
  (exists g' , add_edge g x s ls r t = (g', Ok tt)) <->
  lookup (g_node_names g) s <> None /\ lookup (g_node_names g) t <> None.
Proof.
  unfold add_edge, get_node_id. cbn [g_nodes g_edges g_node_names g_edge_names g_node_counter g_edge_counter].
  destruct (lookup (g_node_names g) s) as [si|]; destruct (lookup (g_node_names g) t) as [ti|];
    (split; [intros [g' E]|intros [E1 E2]]); try discriminate; try congruence; eauto; split; discriminate.
Qed.
