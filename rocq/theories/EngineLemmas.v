(** What the generic results about [prove] need to know of the engine. *)
From Coq Require Import List Arith Bool Lia Permutation Cantor.
Import ListNotations.
From Verif Require Import RbeModel RbeSpec PendingModel PendingSpec PendingLemmas TableModel TableSpec TableLemmas
  GraphModel GraphSpec GraphLemmas ProveModel ProveSpec ProveLemmas ProveTotal ProveSem ProveHist EngineModel EngineSpec EngineShape.

(** the pairs in the items of a table *)
Lemma items_pairs eval t vs p v r : tbuilt t -> In (IOk p) (matches eval t vs) -> pair p v r ->
  exists kv c cd, In kv vs /\ component t c (fst kv) cd /\ TableSpec.needs cd (snd kv) v r.
Proof.
  intros B H P.
  assert (N : In (IOk p) (empty_items t) -> False).
  { unfold empty_items. destruct (cond_nullable _); [|intros [K|[]]; discriminate]. intros [K|[]]. injection K as <-.
    exact (empty_pair v r P). }
  destruct vs as [|kv0 vs0]; [destruct (N H)|].
  destruct (Nat.eq_dec (list_sum (map (@length nat) (map (candidates_of eval t) (kv0 :: vs0)))) 0) as [NF|NF].
  - destruct N. unfold matches in H. rewrite (proj2 (Nat.eqb_eq _ _) NF) in H. exact H.
  - destruct (matches_sound eval t (kv0 :: vs0) p B) as (cs & A & _ & _ & _ & PP); [discriminate|exact NF|exact H|].
    apply PP in P. destruct P as (k & v0 & c & cd & I & C & Nd). exists (k, v0), c, cd. split; [|split; assumption].
    apply in_combine_l in I. exact I.
Qed.

Lemma some_item_mono (f f' : nat -> bool) l :
  (forall p v r, In (IOk p) l -> pair p v r -> f (key v r) = true -> f' (key v r) = true) ->
  some_item f l = true -> some_item f' l = true.
Proof.
  induction l as [|[p|] l IH]; intros M H; [discriminate| |discriminate]. cbn [some_item] in *.
  match type of H with context [forallb ?h ?m] => destruct (forallb h m) eqn:E end.
  - match goal with |- context [forallb ?h ?m] => replace (forallb h m) with true; [reflexivity|] end.
    symmetry. apply forallb_forall. intros [[v r] ks] I. rewrite forallb_forall in E. specialize (E _ I). cbn [fst snd] in *.
    apply (M p v r (or_introl eq_refl)); [exists ks; exact I|exact E].
  - match goal with |- context [forallb ?h ?m] => destruct (forallb h m) end; [reflexivity|].
    apply IH; [|exact H]. intros q v r Hq. apply M. right. exact Hq.
Qed.

Lemma filter_le {A} (h : A -> bool) l : length (filter h l) <= length l.
Proof. induction l as [|x l IH]; [auto|]. cbn [filter]. destruct (h x); cbn [length]; lia. Qed.

(** ** references *)

Section References.
  Variable default_pred : nat.
  Variable sch : schema.
  Notation uses := (label_uses sch).

  Definition within (i : nat) (refs : list (nat * nat)) : Prop := forall p r, In (p, r) refs -> reach uses i r.

  Lemma find_In i e : find sch i = Some e -> In (i, e) (shapes sch).
  Proof.
    unfold find. generalize (shapes sch). induction l as [|[j e'] l IH]; [discriminate|]. cbn [assoc].
    destruct (Nat.eqb_spec i j) as [->|_]; [intro H; injection H as ->; left; reflexivity|intro H; right; exact (IH H)].
  Qed.

  Lemma visit_within rec i l : (forall j, In j l -> uses i j) ->
    (forall j e v refs v', find sch j = Some e -> rec e v = Some (refs, v') -> within j refs) ->
    forall acc v refs v', within i acc -> visit rec sch l acc v = Some (refs, v') -> within i refs.
  Proof.
    intros U R. induction l as [|j l IH]; intros acc v refs v' W H; cbn [visit] in H; [injection H as <- <-; exact W|].
    assert (U' : forall j', In j' l -> uses i j') by (intros j' Hj; apply U; right; exact Hj). specialize (IH U').
    destruct (mem j v); [exact (IH acc v refs v' W H)|]. destruct (find sch j) as [e|] eqn:F; [|exact (IH acc _ refs v' W H)].
    destruct (rec e (j :: v)) as [[rf v1]|] eqn:E; [|discriminate]. apply (IH (acc ++ rf) v1 refs v'); [|exact H].
    intros p r I. apply in_app_iff in I. destruct I as [I|I]; [exact (W p r I)|].
    apply reach_step with (b := j); [apply U; left; reflexivity|]. exact (R j e _ rf v1 F E p r I).
  Qed.

  Lemma value_references_In s k r : In (k, r) (value_references s) <-> exists c, component (s_table s) c k (CRef r).
  Proof.
    unfold value_references. rewrite in_flat_map. split.
    - intros ([k' cd] & H & C). destruct cd as [x|r'|cs]; cbn in C; [destruct C| |destruct C]. destruct C as [C|[]].
      injection C as -> ->. apply combine_component in H. exact H.
    - intros (c & C). exists (k, CRef r). split; [apply In_combine_component with (c := c); exact C|left; reflexivity].
  Qed.

  Lemma references_within fuel : forall i e v refs v', find sch i = Some e ->
    references_visited fuel default_pred sch e v = Some (refs, v') -> within i refs.
  Proof.
    induction fuel as [|f IH]; intros i e v refs v' F H; [discriminate|]. cbn [references_visited] in H.
    assert (G : forall l acc, (forall j, In j l -> uses i j) -> within i acc ->
                visit (references_visited f default_pred sch) sch l acc v = Some (refs, v') -> within i refs).
    { intros l acc U W. apply (visit_within _ i l U); [|exact W]. intros j e' v1 rf v2 Fj E. exact (IH j e' v1 rf v2 Fj E). }
    assert (W0 : within i []) by (intros p r []).
    destruct e as [l|l|j|c|s| |j|]; try (injection H as <- <-; exact W0).
    - apply (G l []); [|exact W0|exact H]. intros j Hj. exists (EOr l). split; [exact F|exact Hj].
    - apply (G l []); [|exact W0|exact H]. intros j Hj. exists (EAnd l). split; [exact F|exact Hj].
    - apply (G [j] []); [|exact W0|exact H]. intros j' [<-|[]]. exists (ENot j). split; [exact F|reflexivity].
    - apply (G (s_extends s) (value_references s)); [| |exact H].
      + intros j Hj. exists (EShape s). split; [exact F|left; exact Hj].
      + intros p r I. apply value_references_In in I. destruct I as (c & C). apply reach_one. exists (EShape s). split; [exact F|].
        right. exists c, p, (CRef r), 0, 0. split; [exact C|split; reflexivity].
    - apply (G [j] [(default_pred, j)]); [| |exact H].
      + intros j' [<-|[]]. exists (ERef j). split; [exact F|reflexivity].
      + intros p r [I|[]]. injection I as <- <-. apply reach_one. exists (ERef j). split; [exact F|reflexivity].
  Qed.

  (** the fuel is enough *)
  Definition todo (v : list nat) : nat := left_over (map fst (shapes sch)) v.

  Lemma todo_le a b : (forall x, In x a -> In x b) -> todo b <= todo a.
  Proof.
    intro I. apply filter_length_le. intros x _ H. apply negb_true_iff in H. apply negb_true_iff. apply mem_not_In in H.
    apply mem_not_In. intro K. exact (H (I x K)).
  Qed.

  Lemma references_total fuel : forall e v, todo v < fuel ->
    exists refs v', references_visited fuel default_pred sch e v = Some (refs, v') /\ forall x, In x v -> In x v'.
  Proof.
    induction fuel as [|f IH]; intros e v L; [lia|]. cbn [references_visited].
    assert (G : forall l acc v1, todo v1 <= f -> exists refs v', visit (references_visited f default_pred sch) sch l acc v1 = Some (refs, v') /\
                forall x, In x v1 -> In x v').
    { induction l as [|j l IHl]; intros acc v1 L1; cbn [visit]; [exists acc, v1; auto|].
      destruct (mem j v1) eqn:M; [apply IHl; exact L1|]. apply mem_not_In in M.
      destruct (find sch j) as [e'|] eqn:F.
      - destruct (IH e' (j :: v1)) as (rf & v2 & E & I).
        { enough (todo (j :: v1) < todo v1) by lia. apply left_over_lt; [|exact M].
          apply find_In in F. apply in_map_iff. exists (j, e'). split; [reflexivity|exact F]. }
        rewrite E. destruct (IHl (acc ++ rf) v2) as (refs & v' & E' & I').
        { etransitivity; [|exact L1]. apply todo_le. intros x Hx. apply I. right. exact Hx. }
        exists refs, v'. split; [exact E'|]. intros x Hx. apply I', I. right. exact Hx.
      - destruct (IHl acc (j :: v1)) as (refs & v' & E' & I').
        { etransitivity; [|exact L1]. apply todo_le. intros x Hx. right. exact Hx. }
        exists refs, v'. split; [exact E'|]. intros x Hx. apply I'. right. exact Hx. }
    destruct e; try (eexists; eexists; split; [reflexivity|auto]; fail); apply G; lia.
  Qed.

  Lemma references_some e : exists v', references_visited (S (S (length (shapes sch)))) default_pred sch e [] = Some (references default_pred sch e, v').
  Proof.
    destruct (references_total (S (S (length (shapes sch)))) e []) as (refs & v' & E & _).
    - unfold todo, left_over. pose proof (filter_le (fun x => negb (mem x [])) (map fst (shapes sch))) as X.
      rewrite map_length in X. apply le_n_S in X. lia.
    - exists v'. unfold references. rewrite E. reflexivity.
  Qed.

  Lemma references_reach i e p r : find sch i = Some e -> In (p, r) (references default_pred sch e) -> reach uses i r.
  Proof. intros F H. destruct (references_some e) as (v' & E). exact (references_within _ i e [] _ v' F E p r H). Qed.

  Lemma references_shape s : s_extends s = [] -> references default_pred sch (EShape s) = value_references s.
  Proof. intro E. unfold references. cbn [references_visited]. rewrite E. reflexivity. Qed.
End References.

(** ** descendants *)

Lemma dfs_fuel (g : graph unit) : forall fuel stack disc,
  length stack + length (filter (fun e => negb (mem (snd (fst e)) disc)) g) < fuel ->
  exists l, dfs fuel (preds g) stack disc = Some l.
Proof.
  induction fuel as [|f IH]; intros stack disc L; [lia|]. cbn [dfs]. destruct stack as [|n st]; [eexists; reflexivity|].
  cbn [length] in L. destruct (mem n disc) eqn:M; [apply IH; lia|].
  set (pushed := rev (filter (fun s => negb (mem s (n :: disc))) (preds g n))).
  assert (P : length (pushed ++ st) + length (filter (fun e => negb (mem (snd (fst e)) (n :: disc))) g) < f).
  { rewrite app_length. unfold pushed. rewrite rev_length.
    assert (Q : length (filter (fun s => negb (mem s (n :: disc))) (preds g n)) <= length (preds g n)).
    { generalize (preds g n) (fun s => negb (mem s (n :: disc))). induction l as [|x l IHl]; intro h; [auto|]. cbn [filter length].
      specialize (IHl h). destruct (h x); cbn [length]; lia. }
    assert (R : length (preds g n) + length (filter (fun e => negb (mem (snd (fst e)) (n :: disc))) g) <=
                length (filter (fun e => negb (mem (snd (fst e)) disc)) g)).
    { unfold preds. rewrite map_length. clear -M. induction g as [|[[a b] w] r IHg]; [auto|]. cbn [filter fst snd].
      change (mem b (n :: disc)) with (existsb (Nat.eqb b) (n :: disc)). destruct (Nat.eqb_spec b n) as [->|NE].
      - change (existsb (Nat.eqb n) (n :: disc)) with (Nat.eqb n n || mem n disc). rewrite Nat.eqb_refl, M. cbn [orb negb length]. lia.
      - change (existsb (Nat.eqb b) (n :: disc)) with (Nat.eqb b n || mem b disc). rewrite (proj2 (Nat.eqb_neq b n) NE).
        cbn [orb]. destruct (negb (mem b disc)); cbn [length]; lia. }
    lia. }
  destruct (IH (pushed ++ st) (n :: disc) P) as (l & E). rewrite E. eexists. reflexivity.
Qed.

Lemma descendants_some (g : graph unit) n : exists l, descendants (S (S (length g))) g n = Some l.
Proof.
  unfold descendants. destruct (dfs_fuel g (S (S (length g))) [n] []) as (l & E).
  - cbn [length]. enough (forall h : (nat * nat) * unit -> bool, length (filter h g) <= length g) as X by (specialize (X (fun e => negb (mem (snd (fst e)) []))); lia).
    intro h. induction g as [|x r IH]; [auto|]. cbn [filter]. destruct (h x); cbn [length]; lia.
  - rewrite E. eexists. reflexivity.
Qed.

Section Engine.
  Variable eval : nat -> nat -> bool.
  Variable external : nat -> nat -> bool.
  Variable default_pred : nat.
  Variable check_extends : nat -> nat -> shape -> (nat -> bool) -> bool.
  Variable sch : schema.
  Variable g : rdf.
  Notation dep := (engine_dep default_pred sch g).
  Notation missing := (engine_missing sch).
  Notation abst := (engine_abstract sch).
  Notation desc := (engine_desc sch).
  Notation check := (engine_check eval external check_extends sch g).
  Notation uses := (label_uses sch).

  Lemma desc_In k d : In d (desc k) <->
    exists l, d = key (node_of k) l /\ l <> label_of k /\ reach (edge (inherit sch)) l (label_of k).
  Proof.
    unfold engine_desc. destruct (descendants_some (inherit sch) (label_of k)) as (l & E). rewrite E.
    destruct (descendants_spec (inherit sch) (label_of k)) as [_ S]. destruct (S _ l E) as [_ M].
    rewrite in_map_iff. split.
    - intros (x & <- & H). exists x. split; [reflexivity|]. apply M. exact H.
    - intros (x & -> & H). exists x. split; [reflexivity|]. apply M. exact H.
  Qed.

  Lemma dep_In k j : In j (dep k) ->
    exists e, find sch (label_of k) = Some e /\
      ((exists i, In i (direct_references e) /\ j = key (node_of k) i) \/
       (exists p v r, In (p, r) (references default_pred sch e) /\ In (p, v) (fst (neighs (node_of k) [p] g)) /\ j = key v r)).
  Proof.
    unfold engine_dep. destruct (find sch (label_of k)) as [e|]; [|intros []]. intro H. exists e. split; [reflexivity|].
    apply in_app_iff in H. destruct H as [H|H].
    - left. apply in_map_iff in H. destruct H as (i & <- & H). exists i. split; [exact H|reflexivity].
    - right. apply in_flat_map in H. destruct H as ([p v] & H & K). apply in_flat_map in K. destruct K as ([p' r] & K & C).
      cbn [fst snd] in C. destruct (Nat.eqb_spec p' p) as [->|_]; [|destruct C]. destruct C as [<-|[]].
      exists p, v, r. split; [exact K|]. split; [|reflexivity]. apply neighs_In in H. apply neighs_In. split; [left; reflexivity|apply H].
  Qed.

  Lemma In_dep_direct k e i : find sch (label_of k) = Some e -> In i (direct_references e) -> In (key (node_of k) i) (dep k).
  Proof. intros F H. unfold engine_dep. rewrite F. apply in_app_iff. left. apply in_map. exact H. Qed.

  Lemma In_dep_reference k e p v r : find sch (label_of k) = Some e -> In (p, r) (references default_pred sch e) ->
    (exists q, (p = direct q /\ In (node_of k, q, v) g) \/ (p = inverse q /\ In (v, q, node_of k) g)) -> In (key v r) (dep k).
  Proof.
    intros F H N. unfold engine_dep. rewrite F. apply in_app_iff. right. apply in_flat_map. exists (p, v). split.
    - apply neighs_In. split; [|exact N]. apply in_map_iff. exists (p, r). split; [reflexivity|exact H].
    - apply in_flat_map. exists (p, r). split; [exact H|]. cbn [fst snd]. rewrite Nat.eqb_refl. left. reflexivity.
  Qed.

  Lemma dep_label k j : In j (dep k) -> reach uses (label_of k) (label_of j).
  Proof.
    intro H. apply dep_In in H. destruct H as (e & F & [(i & I & ->)|(p & v & r & I & _ & ->)]); rewrite key_label.
    - apply reach_one. exists e. split; [exact F|]. destruct e; cbn in I; try exact I; try destruct I as [->|[]]; try reflexivity; destruct I.
    - exact (references_reach default_pred sch _ e p r F I).
  Qed.

  (** ** a finite closed set of pairs *)

  Fixpoint cond_refs (c : mcond) : list nat :=
    match c with CSingle _ => [] | CRef r => [r] | CAnd cs => flat_map cond_refs cs end.
  Lemma needs_refs c v v' r : TableSpec.needs c v v' r -> In r (cond_refs c).
  Proof.
    induction c as [k|r'|cs IH] using mcond_ind'; cbn [TableSpec.needs cond_refs].
    - intros [].
    - intros [_ ->]. left. reflexivity.
    - intro H. induction IH as [|c cs Hc Hcs IHcs]; [destruct H|]. cbn [fold_right] in H. cbn [flat_map]. apply in_app_iff.
      destruct H as [H|H]; [left; exact (Hc H)|right; exact (IHcs H)].
  Qed.
  Definition expr_labels (e : sexpr) : list nat :=
    match e with
    | EOr l | EAnd l => l
    | ENot i | ERef i => [i]
    | EShape s => s_extends s ++ flat_map cond_refs (t_cond (s_table s))
    | _ => []
    end.
  Definition labels : list nat :=
    map fst (shapes sch) ++ flat_map (fun ie => expr_labels (snd ie)) (shapes sch) ++ nodes (inherit sch).

  Lemma uses_label i j : uses i j -> In j labels.
  Proof.
    intros (e & F & H). unfold labels. apply in_app_iff. right. apply in_app_iff. left. apply in_flat_map. exists (i, e).
    split; [apply find_In; exact F|]. cbn [snd]. destruct e; cbn [expr_labels]; try exact H; try (left; congruence); try (destruct H; fail).
    apply in_app_iff. destruct H as [H|(c & k & cd & v & v' & [C1 C2] & N)]; [left; exact H|right].
    apply in_flat_map. exists cd. split; [eapply nth_error_In; exact C2|]. exact (needs_refs _ _ _ _ N).
  Qed.
  Lemma reach_label i j : In i labels -> reach uses i j -> In j labels.
  Proof. intros I R. revert I. induction R as [a|a b c U R IH]; intro I; [exact I|]. apply IH. exact (uses_label a b U). Qed.
  Lemma find_label i e : find sch i = Some e -> In i labels.
  Proof. intro F. unfold labels. apply in_app_iff. left. apply in_map_iff. exists (i, e). split; [reflexivity|apply find_In; exact F]. Qed.

  Definition graph_nodes : list nat := flat_map (fun t : nat * nat * nat => [fst (fst t); snd t]) g.

  Section Pairs.
    Variables (more_nodes more_labels : list nat).
    Definition pairs : list nat :=
      flat_map (fun n => map (key n) (more_labels ++ labels)) (more_nodes ++ graph_nodes).

    Lemma pairs_In k : In k pairs <-> In (node_of k) (more_nodes ++ graph_nodes) /\ In (label_of k) (more_labels ++ labels).
    Proof.
      unfold pairs. rewrite in_flat_map. split.
      - intros (n & N & H). apply in_map_iff in H. destruct H as (l & <- & L). rewrite key_node, key_label. split; assumption.
      - intros [N L]. exists (node_of k). split; [exact N|]. apply in_map_iff. exists (label_of k). split; [apply key_eta|exact L].
    Qed.

    Lemma pairs_closed : closed dep desc pairs.
    Proof.
      intros k j K [D|D].
      - apply pairs_In in K. destruct K as [KN KL]. pose proof (dep_label k j D) as R. apply dep_In in D.
        destruct D as (e & F & D). apply pairs_In. split.
        + destruct D as [(i & I & ->)|(p & v & r & _ & N & ->)]; rewrite key_node; [exact KN|].
          apply neighs_In in N. destruct N as (_ & q & N). apply in_app_iff. right. unfold graph_nodes. apply in_flat_map.
          destruct N as [[_ N]|[_ N]]; eexists; (split; [exact N|]); cbn [fst snd]; [right; left|left]; reflexivity.
        + apply in_app_iff. right. apply (reach_label (label_of k)); [exact (find_label _ e F)|exact R].
      - apply pairs_In in K. destruct K as [KN KL]. apply desc_In in D. destruct D as (l & -> & NE & R). apply pairs_In.
        rewrite key_node, key_label. split; [exact KN|]. apply in_app_iff. right. unfold labels. apply in_app_iff. right.
        apply in_app_iff. right. inversion R as [|a b c E R' X Y]; subst; [destruct (NE eq_refl)|]. destruct E as (w & E).
        apply nodes_In. exists b. left. exists w. exact E.
    Qed.

    Hypothesis acyclic : forall a, ~ on_cycle (edge (inherit sch)) a.

    Lemma pairs_descends : exists rank, descends desc pairs rank.
    Proof.
      destruct (rank_exists (nodes (inherit sch)) (preds (inherit sch))) as (r & R1 & R2).
      - intros k j _ J. apply preds_In in J. apply nodes_In. exists k. left. exact J.
      - exists (fun k => r (label_of k)). intros k d K D. apply desc_In in D. destruct D as (l & -> & NE & R). rewrite key_label.
        assert (S : forall a b, edge (inherit sch) a b -> r a < r b).
        { intros a b E. pose proof E as (w & W). apply R2.
          - apply nodes_In. exists a. right. exact E.
          - apply preds_In. exists w. exact W.
          - intro Q. apply (acyclic a). exists b. split; [exact E|].
            clear -Q. assert (G : forall x y, reach (fun x y => In y (preds (inherit sch) x)) x y -> reach (edge (inherit sch)) y x).
            { intros x y H. induction H as [x|x y z E H IH]; [constructor|]. apply preds_In in E.
              apply (reach_trans _ z y x IH). apply reach_one. exact E. }
            apply G. exact Q. }
        assert (G : forall a b, reach (edge (inherit sch)) a b -> a <> b -> r a < r b).
        { clear -S. intros a b H. induction H as [a|a b c E H IH]; intro N; [destruct (N eq_refl)|].
          destruct (Nat.eq_dec b c) as [->|Q]; [exact (S a c E)|]. specialize (IH Q). specialize (S a b E). lia. }
        exact (G l (label_of k) R NE).
    Qed.
  End Pairs.
End Engine.
