(** Lemmas about the check of a node against a shape. *)
From Coq Require Import List Arith Bool Lia Permutation Cantor.
Import ListNotations.
From Verif Require Import RbeModel RbeSpec RbeDeriv RbeFinal PendingModel PendingSpec PendingLemmas
  TableModel TableSpec TableLemmas GraphModel GraphLemmas EngineModel EngineSpec.

Lemma key_node n l : node_of (key n l) = n.
Proof. unfold node_of, key. rewrite cancel_of_to. reflexivity. Qed.
Lemma key_label n l : label_of (key n l) = l.
Proof. unfold label_of, key. rewrite cancel_of_to. reflexivity. Qed.
Lemma key_eta k : key (node_of k) (label_of k) = k.
Proof. unfold node_of, label_of, key. rewrite <- surjective_pairing. apply cancel_to_of. Qed.
Lemma key_inj n l n' l' : key n l = key n' l' -> n = n' /\ l = l'.
Proof.
  intro H. split.
  - rewrite <- (key_node n l), H. apply key_node.
  - rewrite <- (key_label n l), H. apply key_label.
Qed.

Lemma direct_inj p q : direct p = direct q -> p = q.
Proof. unfold direct. lia. Qed.
Lemma inverse_inj p q : inverse p = inverse q -> p = q.
Proof. unfold inverse. lia. Qed.
Lemma direct_inverse p q : direct p <> inverse q.
Proof. unfold direct, inverse. lia. Qed.
Lemma is_direct_direct p : is_direct (direct p) = true.
Proof. unfold is_direct, direct. rewrite Nat.even_mul. reflexivity. Qed.
Lemma is_direct_inverse p : is_direct (inverse p) = false.
Proof. unfold is_direct, inverse. rewrite Nat.even_add, Nat.even_mul. reflexivity. Qed.

Lemma flat_map_one {A B} (f : A -> bool) (h : A -> B) l : flat_map (fun x => if f x then [h x] else []) l = map h (filter f l).
Proof. induction l as [|x l IH]; [reflexivity|]. simpl. destruct (f x); simpl; rewrite IH; reflexivity. Qed.

Lemma NoDup_map_inj {A B} (f : A -> B) l : (forall x y, In x l -> In y l -> f x = f y -> x = y) -> NoDup l -> NoDup (map f l).
Proof.
  intros I N. induction N as [|x l Nx N IH]; [constructor|]. simpl. constructor.
  - intro H. apply in_map_iff in H. destruct H as (y & E & Hy). apply Nx.
    rewrite <- (I y x (or_intror Hy) (or_introl eq_refl) E). exact Hy.
  - apply IH. intros a b Ha Hb. apply I; right; assumption.
Qed.

Lemma NoDup_app_intro {A} (l m : list A) : NoDup l -> NoDup m -> (forall x, In x l -> ~ In x m) -> NoDup (l ++ m).
Proof.
  intros N M D. induction N as [|x l Nx N IH]; [exact M|]. simpl. constructor.
  - intro H. apply in_app_iff in H. destruct H as [H|H]; [exact (Nx H)|exact (D x (or_introl eq_refl) H)].
  - apply IH. intros y Hy. apply D. right. exact Hy.
Qed.
Lemma NoDup_app_elim {A} (l m : list A) : NoDup (l ++ m) -> NoDup l /\ NoDup m /\ forall x, In x l -> ~ In x m.
Proof.
  induction l as [|x l IH]; intro H; [split; [constructor|split; [exact H|intros x []]]|].
  inversion H as [|? ? Nx N]; subst. destruct (IH N) as (A1 & A2 & A3). split; [|split; [exact A2|]].
  - constructor; [|exact A1]. intro K. apply Nx, in_app_iff. left. exact K.
  - intros y [<-|Hy]; [|exact (A3 y Hy)]. intro K. apply Nx, in_app_iff. right. exact K.
Qed.

(** ** neighbours *)

Definition out_arc (t : nat * nat * nat) : nat * nat := (direct (snd (fst t)), snd t).
Definition in_arc (t : nat * nat * nat) : nat * nat := (inverse (snd (fst t)), fst (fst t)).

Lemma outgoing_map n ps g : outgoing n ps g =
  map out_arc (filter (fun t => Nat.eqb (fst (fst t)) n && mem (direct (snd (fst t))) ps) g).
Proof. rewrite <- flat_map_one. unfold outgoing. apply flat_map_ext. intros [[s p] o]. reflexivity. Qed.
Lemma incoming_map n ps g : incoming n ps g =
  map in_arc (filter (fun t => Nat.eqb (snd t) n && mem (inverse (snd (fst t))) ps) g).
Proof. rewrite <- flat_map_one. unfold incoming. apply flat_map_ext. intros [[s p] o]. reflexivity. Qed.

Lemma outgoing_In n ps g k v : In (k, v) (outgoing n ps g) <-> In k ps /\ exists p, k = direct p /\ In (n, p, v) g.
Proof.
  rewrite outgoing_map, in_map_iff. split.
  - intros ([[s p] o] & E & H). apply filter_In in H. destruct H as [H C]. cbn [fst snd] in C. apply andb_true_iff in C.
    destruct C as [C M]. apply Nat.eqb_eq in C. apply mem_In in M. cbn in E. injection E as <- <-. subst s. split; [exact M|].
    exists p. split; [reflexivity|exact H].
  - intros (M & p & -> & H). exists (n, p, v). split; [reflexivity|]. apply filter_In. split; [exact H|]. cbn [fst snd].
    rewrite Nat.eqb_refl. apply mem_In. exact M.
Qed.
Lemma incoming_In n ps g k v : In (k, v) (incoming n ps g) <-> In k ps /\ exists p, k = inverse p /\ In (v, p, n) g.
Proof.
  rewrite incoming_map, in_map_iff. split.
  - intros ([[s p] o] & E & H). apply filter_In in H. destruct H as [H C]. cbn [fst snd] in C. apply andb_true_iff in C.
    destruct C as [C M]. apply Nat.eqb_eq in C. apply mem_In in M. cbn in E. injection E as <- <-. subst o. split; [exact M|].
    exists p. split; [reflexivity|exact H].
  - intros (M & p & -> & H). exists (v, p, n). split; [reflexivity|]. apply filter_In. split; [exact H|]. cbn [fst snd].
    rewrite Nat.eqb_refl. apply mem_In. exact M.
Qed.

Lemma neighs_In n ps g k v : In (k, v) (fst (neighs n ps g)) <->
  In k ps /\ exists p, (k = direct p /\ In (n, p, v) g) \/ (k = inverse p /\ In (v, p, n) g).
Proof.
  unfold neighs. cbn [fst]. rewrite in_app_iff, outgoing_In, incoming_In. split.
  - intros [(M & p & H)|(M & p & H)]; (split; [exact M|exists p; tauto]).
  - intros (M & p & [H|H]); [left|right]; (split; [exact M|exists p; exact H]).
Qed.

Lemma neighs_NoDup n ps g : NoDup g -> NoDup (fst (neighs n ps g)).
Proof.
  intro N. unfold neighs. cbn [fst]. apply NoDup_app_intro.
  - rewrite outgoing_map. apply NoDup_map_inj; [|apply NoDup_filter; exact N].
    intros [[s p] o] [[s' p'] o'] H H' E. apply filter_In in H, H'. destruct H as [_ H], H' as [_ H']. cbn [fst snd] in H, H'.
    apply andb_true_iff in H, H'. destruct H as [H _], H' as [H' _]. apply Nat.eqb_eq in H, H'.
    cbn in E. injection E as E <-. f_equal. f_equal; [congruence|unfold direct in *; lia].
  - rewrite incoming_map. apply NoDup_map_inj; [|apply NoDup_filter; exact N].
    intros [[s p] o] [[s' p'] o'] H H' E. apply filter_In in H, H'. destruct H as [_ H], H' as [_ H']. cbn [fst snd] in H, H'.
    apply andb_true_iff in H, H'. destruct H as [H _], H' as [H' _]. apply Nat.eqb_eq in H, H'.
    cbn in E. injection E as E <-. f_equal; [|congruence]. f_equal. unfold inverse in *; lia.
  - intros [k v] H K. apply outgoing_In in H. apply incoming_In in K. destruct H as (_ & p & -> & _), K as (_ & q & E & _).
    exact (direct_inverse p q E).
Qed.

Lemma reminder_In n ps g p : In p (snd (neighs n ps g)) <-> ~ In (direct p) ps /\ exists v, In (n, p, v) g.
Proof.
  unfold neighs. cbn [snd]. rewrite in_flat_map. split.
  - intros ([[s q] o] & H & C). destruct (Nat.eqb_spec s n) as [->|_]; cbn in C; [|destruct C].
    change (In p (if negb (mem (direct q) ps) then [q] else [])) in C.
    pose proof (mem_In (direct q) ps) as X.
    destruct (mem (direct q) ps); [destruct C|]. destruct C as [<-|[]]. split; [|eauto].
    intro K. apply X in K. discriminate.
  - intros (M & v & H). exists (n, p, v). split; [exact H|]. rewrite Nat.eqb_refl. cbn [andb].
    destruct (mem (direct p) ps) eqn:E; [destruct M; apply mem_In; exact E|left; reflexivity].
Qed.

(** the whole neighbourhood, by taking all predicates of the graph *)
Definition all_preds (g : rdf) : list nat := flat_map (fun t => [direct (snd (fst t)); inverse (snd (fst t))]) g.

Lemma neighbourhood_neighs g n : NoDup g -> neighbourhood g n (fst (neighs n (all_preds g) g)).
Proof.
  intro N. split; [apply neighs_NoDup; exact N|]. intros k v. rewrite neighs_In. split; [intros [_ H]; exact H|].
  intros (p & H). split; [|eauto]. unfold all_preds. apply in_flat_map. destruct H as [[-> H]|[-> H]].
  - exists (n, p, v). split; [exact H|left; reflexivity].
  - exists (v, p, n). split; [exact H|right; left; reflexivity].
Qed.

Lemma candidate_preds_In s k : In k (candidate_preds s) <-> In k (s_preds s) \/ In k (s_extra s).
Proof.
  unfold candidate_preds. generalize (s_preds s). induction (s_extra s) as [|p l IH]; intro acc; cbn [fold_left]; [simpl; tauto|].
  rewrite IH. destruct (mem p acc) eqn:E.
  - apply mem_In in E. simpl. split; [tauto|]. intros [H|[<-|H]]; auto.
  - rewrite in_app_iff. simpl. tauto.
Qed.

(** ** conditions *)

Lemma In_combine_component t c k cd : component t c k cd -> In (k, cd) (combine (t_ckey t) (t_cond t)).
Proof.
  unfold component. generalize (t_ckey t), (t_cond t). induction c as [|c IH]; intros [|k0 ks] [|d ds] [H1 H2]; try discriminate.
  - injection H1 as ->. injection H2 as ->. left. reflexivity.
  - right. apply IH. split; assumption.
Qed.
Lemma combine_component t k cd : In (k, cd) (combine (t_ckey t) (t_cond t)) -> exists c, component t c k cd.
Proof.
  unfold component. generalize (t_ckey t), (t_cond t). induction l as [|k0 ks IH]; intros [|d ds] H; try destruct H as [].
  - injection H as -> ->. exists 0. split; reflexivity.
  - destruct (IH ds H) as (c & H1 & H2). exists (S c). split; assumption.
Qed.

Lemma has_ref_needs c : cond_has_ref c = true <-> exists v v' r, needs c v v' r.
Proof.
  induction c as [k|r|cs IH] using mcond_ind'.
  - simpl. split; [discriminate|intros (v & v' & r & H); destruct H].
  - simpl. split; [|reflexivity]. intros _. exists 0, 0, r. split; reflexivity.
  - cbn [cond_has_ref needs]. rewrite existsb_exists. split.
    + intros (c & Hc & H). rewrite Forall_forall in IH. apply (IH c Hc) in H. destruct H as (v & v' & r & H).
      exists v, v', r. clear IH. induction cs as [|d ds IHd]; [destruct Hc|]. simpl. destruct Hc as [->|Hc]; [left; exact H|right; auto].
    + intros (v & v' & r & H). induction IH as [|d ds Hd Hds IHd]; [destruct H|]. simpl in H. destruct H as [H|H].
      * exists d. split; [left; reflexivity|]. apply Hd. eauto.
      * destruct (IHd H) as (c & Hc & K). exists c. split; [right; exact Hc|exact K].
Qed.

Section Shape.
  Variable eval : nat -> nat -> bool.

  Lemma any_leaf_spec t k v : matches_any_leaf eval t k v = true <->
    exists c cd, component t c k cd /\ (satisfies eval cd v \/ exists v0 v' r, needs cd v0 v' r).
  Proof.
    unfold matches_any_leaf. rewrite existsb_exists. split.
    - intros ([k' cd] & H & C). cbn [fst snd] in C. apply andb_true_iff in C. destruct C as [C D]. apply Nat.eqb_eq in C. subst k'.
      apply combine_component in H. destruct H as (c & H). exists c, cd. split; [exact H|]. apply orb_true_iff in D.
      destruct D as [D|D]; [right; apply has_ref_needs; exact D|left]. pose proof (cond_matches_spec eval cd v) as X.
      destruct (cond_matches eval cd v); [apply X|discriminate].
    - intros (c & cd & H & D). exists (k, cd). split; [apply In_combine_component with (c := c); exact H|]. cbn [fst snd].
      rewrite Nat.eqb_refl. cbn [andb]. apply orb_true_iff. destruct D as [D|D]; [right|left; apply has_ref_needs; exact D].
      pose proof (cond_matches_spec eval cd v) as X. destruct (cond_matches eval cd v); [reflexivity|destruct (X D)].
  Qed.

  (** ** the loop over the items *)

  Variable T : typing.
  Let TK (k : nat) : bool := T (node_of k) (label_of k).

  Definition item_ok (p : pending) : Prop := forall v r, pair p v r -> T v r = true.

  Lemma item_okb p : forallb (fun vr : nat * nat * list nat => TK (key (fst (fst vr)) (snd (fst vr)))) (p_iter_vr p) = true <-> item_ok p.
  Proof.
    rewrite forallb_forall. split.
    - intros H v r (ks & K). specialize (H _ K). cbn [fst snd] in H. unfold TK in H. rewrite key_node, key_label in H. exact H.
    - intros H [[v r] ks] K. cbn [fst snd]. unfold TK. rewrite key_node, key_label. apply H. exists ks. exact K.
  Qed.

  Lemma some_item_spec l : (In IErr l -> forall p, ~ In (IOk p) l) ->
    (some_item TK l = true <-> exists p, In (IOk p) l /\ item_ok p).
  Proof.
    induction l as [|i l IH]; intro E; [split; [discriminate|intros (p & [] & _)]|].
    cbn [some_item]. destruct i as [p|].
    - pose proof (item_okb p) as X.
      match goal with |- context [forallb ?f ?m] => destruct (forallb f m) end.
      + split; [|reflexivity]. intros _. exists p. split; [left; reflexivity|apply X; reflexivity].
      + rewrite IH.
        * split; intros (q & H & K); [exists q; split; [right; exact H|exact K]|].
          destruct H as [H|H]; [injection H as ->; apply X in K; discriminate|exists q; split; assumption].
        * intros H q K. exact (E (or_intror H) q (or_intror K)).
    - split; [discriminate|]. intros (p & H & _). destruct (E (or_introl eq_refl) p H).
  Qed.

  (** an assignment whose references hold *)
  Lemma assignment_arcs t vs cs : length (t_ckey t) = length (t_cond t) ->
    (Forall2 (arc_matches eval T t) vs cs <->
     assignment eval t vs cs /\ forall v r k, leaves t vs cs v r k -> T v r = true).
  Proof.
    intros _. split.
    - intro F. split.
      + unfold assignment. induction F as [|kv c vs cs (cd & C & S & _) F IH]; constructor; [exists cd; split; assumption|exact IH].
      + intros v r k (v0 & c & cd & H & C & N). induction F as [|kv c0 vs cs (cd0 & C0 & S & R) F IH]; [destruct H|].
        destruct H as [H|H]; [|exact (IH H)]. injection H as -> ->. destruct C as [C1 C2], C0 as [C3 C4].
        rewrite C2 in C4. injection C4 as <-. exact (R v r N).
    - intros [A L]. unfold assignment in A. induction A as [|kv c vs cs (cd & C & S) A IH]; [constructor|].
      constructor.
      + exists cd. split; [exact C|]. split; [exact S|]. intros v r N. apply (L v r (fst kv)). exists (snd kv), c, cd.
        split; [left; destruct kv; reflexivity|]. split; assumption.
      + apply IH. intros v r k (v0 & c0 & cd0 & H & K). apply (L v r k). exists v0, c0, cd0. split; [right; exact H|exact K].
  Qed.

  Lemma check_expr_neigh_spec t e vs : table_for t e -> (one_per_predicate t \/ ~ lang e bzero) ->
    (forall kv, In kv vs -> mentioned t (fst kv)) ->
    (check_expr_neigh eval t vs TK = true <->
     exists cs, Forall2 (arc_matches eval T t) vs cs /\ lang e (bag_of cs)).
  Proof.
    intros U O M. pose proof U as (B & _). destruct (components_spec eval t B) as (L & CM & ND).
    unfold check_expr_neigh. destruct vs as [|kv0 vs0].
    { destruct (table_empty eval t e U) as [E1 E2].
      assert (X : matches eval t [] = [IOk p_empty] \/ matches eval t [] = [IErr]).
      { unfold matches, empty_items. simpl orb. cbv iota. destruct (cond_nullable _); auto. }
      destruct X as [X|X]; rewrite X.
      - split; [|reflexivity]. intros _. exists []. split; [constructor|]. apply E1. exact X.
      - split; [discriminate|]. intros (cs & F & G). inversion F; subst. exfalso. apply E2 in X. exact (X G). }
    set (vs := kv0 :: vs0) in *. assert (NE : vs <> []) by discriminate.
    destruct (Nat.eq_dec (list_sum (map (@length nat) (map (candidates_of eval t) vs))) 0) as [NF|NF].
    { split.
      - intro H. exfalso. assert (X : matches eval t vs = matches eval t []).
        { unfold matches. rewrite (proj2 (Nat.eqb_eq _ _) NF). subst vs. reflexivity. }
        destruct O as [O|O].
        + pose proof (proj1 (nothing_found_spec eval t vs) NF kv0 (or_introl eq_refl)) as Z. unfold candidates_of in Z.
          destruct (M kv0 (or_introl eq_refl)) as (c & cd & [C1 C2]).
          assert (I : In c (components_of t (fst kv0))) by (apply CM; exact C1).
          destruct (Nat.ltb_spec 1 (length (components_of t (fst kv0)))) as [Q|Q]; [|rewrite Z in I; destruct I].
          specialize (ND (fst kv0)). destruct (components_of t (fst kv0)) as [|a [|b l]] eqn:W; simpl in Q; try lia.
          assert (AB : a = b).
          { assert (Ia : In a (components_of t (fst kv0))) by (rewrite W; left; reflexivity).
            assert (Ib : In b (components_of t (fst kv0))) by (rewrite W; right; left; reflexivity).
            destruct (component_of eval t a (fst kv0) B Ia) as (ca & Ca), (component_of eval t b (fst kv0) B Ib) as (cb & Cb).
            exact (O a b (fst kv0) ca cb Ca Cb). }
          subst b. inversion ND as [|? ? Na _]; subst. apply Na. left. reflexivity.
        + rewrite X in H. destruct (table_empty eval t e U) as [_ E2]. rewrite (proj2 E2 O) in H. discriminate.
      - intros (cs & F & _). exfalso. apply (assignment_arcs t vs cs L) in F. destruct F as [A _].
        exact (nothing_found_assignment eval t vs cs B NE NF A). }
    rewrite some_item_spec.
    - split.
      + intros (p & H & K). destruct (matches_sound eval t vs p B NE NF H) as (cs & A & Mb & Bp & _ & P). exists cs.
        split; [|apply (usable_interval t e cs U); exact Mb]. apply (assignment_arcs t vs cs L). split; [exact A|].
        intros v r k Lv. apply K, P. exists k. exact Lv.
      + intros (cs & F & G). apply (assignment_arcs t vs cs L) in F. destruct F as [A Lv].
        destruct (table_every eval t e vs cs U NE A G) as (p & H & _ & P). exists p. split; [exact H|].
        intros v r Q. apply P in Q. destruct Q as (k & Q). exact (Lv v r k Q).
    - intros H p K. destruct (matches_sound eval t vs p B NE NF K) as (cs & A & _).
      exact (matches_error eval t vs B NE NF H cs A).
  Qed.

  Variable g : rdf.
  Hypothesis H_g : NoDup g.

  Lemma arc_matches_mentioned t kv c : arc_matches eval T t kv c -> mentioned t (fst kv).
  Proof. intros (cd & C & _). exists c, cd. exact C. Qed.

  Theorem check_node_shape_spec n s : exact_shape s ->
    (check_node_shape eval g n s TK = true <-> shape_holds_variant eval g T n s).
  Proof.
    intros (U & O & P). set (t := s_table s) in *. set (e := rs_rbe (t_rbe t)) in *. pose proof U as (B & _).
    unfold check_node_shape. destruct (neighs n (candidate_preds s) g) as [values reminder] eqn:EN.
    pose proof (neighs_In n (candidate_preds s) g) as VI. pose proof (neighs_NoDup n (candidate_preds s) g H_g) as VN.
    pose proof (reminder_In n (candidate_preds s) g) as RI. rewrite EN in VI, VN, RI. cbn [fst snd] in VI, VN, RI.
    fold t. set (keep := fun kv : nat * nat => negb (mem (fst kv) (s_extra s)) || matches_any_leaf eval t (fst kv) (snd kv)).
    (* a predicate that is not mentioned has no leaf *)
    assert (KM : forall kv, In kv values -> keep kv = true -> mentioned t (fst kv)).
    { intros [k v] H K. unfold keep in K. cbn [fst snd] in *. apply VI in H. destruct H as [H _]. apply candidate_preds_In in H.
      rewrite P in H. destruct H as [H|H]; [exact H|]. apply orb_true_iff in K. destruct K as [K|K].
      - apply negb_true_iff in K. apply mem_In in H. congruence.
      - apply any_leaf_spec in K. destruct K as (c & cd & C & _). exists c, cd. exact C. }
    assert (LK : forall k v, keep (k, v) = false <-> In k (s_extra s) /\
        forall c cd, component t c k cd -> ~ satisfies eval cd v /\ forall v' r, ~ needs cd v v' r).
    { intros k v. unfold keep. cbn [fst snd]. split.
      - intro K. apply orb_false_iff in K. destruct K as [K1 K2]. apply negb_false_iff, mem_In in K1. split; [exact K1|].
        intros c cd C. split.
        + intro S. assert (X : matches_any_leaf eval t k v = true) by (apply any_leaf_spec; exists c, cd; split; [exact C|left; exact S]). congruence.
        + intros v' r N. assert (X : matches_any_leaf eval t k v = true) by (apply any_leaf_spec; exists c, cd; split; [exact C|right; eauto]). congruence.
      - intros [K1 K2]. apply mem_In in K1. rewrite K1. cbn [negb orb]. destruct (matches_any_leaf eval t k v) eqn:Z; [|reflexivity].
        apply any_leaf_spec in Z. destruct Z as (c & cd & C & [S|(v0 & v' & r & N)]); [destruct (proj1 (K2 c cd C) S)|].
        exfalso. assert (R : cond_has_ref cd = true) by (apply has_ref_needs; eauto).
        assert (Y : exists v'' r', needs cd v v'' r').
        { clear -R. induction cd as [|r|cs IH] using mcond_ind'; [discriminate|exists v, r; split; reflexivity|].
          cbn [cond_has_ref] in R. apply existsb_exists in R. destruct R as (c & Hc & R). rewrite Forall_forall in IH.
          destruct (IH c Hc R) as (v'' & r' & N). exists v'', r'. cbn [needs]. clear IH. induction cs as [|d ds IHd]; [destruct Hc|].
          simpl. destruct Hc as [->|Hc]; [left; exact N|right; auto]. }
        destruct Y as (v'' & r' & Y). exact (proj2 (K2 c cd C) v'' r' Y). }
    destruct (s_closed s && negb match reminder with [] => true | _ :: _ => false end) eqn:CL.
    { split; [discriminate|]. intros (matched & rest & cs & [_ NB] & F & _ & R). exfalso.
      apply andb_true_iff in CL. destruct CL as [CL W]. destruct reminder as [|p reminder]; [discriminate|].
      destruct (proj1 (RI p) (or_introl eq_refl)) as (NP & v & H).
      assert (I : In (direct p, v) (matched ++ rest)) by (apply NB; exists p; left; split; [reflexivity|exact H]).
      assert (NM : ~ mentioned t (direct p)) by (intro X; apply NP, candidate_preds_In; left; apply P; exact X).
      apply in_app_iff in I. destruct I as [I|I].
      - apply NM. clear -F I. induction F as [|kv c l cs Hc F IH]; [destruct I|]. destruct I as [->|I]; [|exact (IH I)].
        exact (arc_matches_mentioned t _ c Hc).
      - apply NP, candidate_preds_In. right. exact (proj2 (R _ _ I) NM (is_direct_direct p) CL). }
    rewrite (check_expr_neigh_spec t e); [|exact U|exact O|].
    2:{ intros kv H. apply filter_In in H. destruct H as [H K]. exact (KM kv H K). }
    split.
    - intros (cs & F & G).
      destruct (neighbourhood_neighs g n H_g) as [AN AI]. set (arcs := fst (neighs n (all_preds g) g)) in *.
      exists (filter keep values), (filter (fun kv => negb (mem (fst kv) (candidate_preds s) && keep kv)) arcs), cs.
      split; [split|].
      + apply NoDup_app_intro; [apply NoDup_filter; exact VN|apply NoDup_filter; exact AN|].
        intros [k v] H K. apply filter_In in H, K. destruct H as [H1 H2], K as [_ K]. apply VI in H1. destruct H1 as [H1 _].
        cbn [fst] in K. rewrite (proj2 (mem_In k _) H1), H2 in K. discriminate.
      + intros k v. rewrite in_app_iff, !filter_In, AI, VI. cbn [fst]. split; [tauto|]. intro H.
        destruct (mem k (candidate_preds s)) eqn:MK.
        * cbn [andb]. apply mem_In in MK. destruct (keep (k, v)) eqn:KK; [left; tauto|right; tauto].
        * right. split; [exact H|reflexivity].
      + split; [exact F|]. split; [exact G|]. intros k v H. apply filter_In in H. destruct H as [H1 H2]. cbn [fst] in H2.
        apply negb_true_iff in H2. split.
        * intro X. assert (I : In k (candidate_preds s)) by (apply candidate_preds_In; left; apply P; exact X).
          rewrite (proj2 (mem_In k _) I) in H2. cbn [andb] in H2. apply LK. exact H2.
        * intros NM D C. destruct (in_dec Nat.eq_dec k (s_extra s)) as [I|I]; [exact I|exfalso].
          rewrite C in CL. cbn [andb] in CL. apply negb_false_iff in CL. destruct reminder as [|p reminder]; [|discriminate].
          apply AI in H1. destruct H1 as (p & [[-> H1]|[-> _]]); [|rewrite is_direct_inverse in D; discriminate].
          destruct (proj2 (RI p)). split; [|eauto]. intro Q. apply candidate_preds_In in Q. rewrite P in Q. tauto.
    - intros (matched & rest & cs & [NN NB] & F & G & R).
      apply NoDup_app_elim in NN. destruct NN as (N1 & N2 & N3).
      assert (MM : forall kv, In kv matched -> mentioned t (fst kv) /\ keep kv = true).
      { intros kv H. clear -F H LK. induction F as [|kv' c l cs Hc F IH]; [destruct H|]. destruct H as [->|H]; [|exact (IH H)].
        split; [exact (arc_matches_mentioned t _ c Hc)|]. destruct kv as [k v]. destruct (keep (k, v)) eqn:K; [reflexivity|].
        apply LK in K. destruct K as [_ K]. destruct Hc as (cd & C & S & _). destruct (proj1 (K c cd C) S). }
      assert (PM : Permutation matched (filter keep values)).
      { apply NoDup_Permutation; [exact N1|apply NoDup_filter; exact VN|]. intros [k v]. rewrite filter_In, VI. split.
        - intro H. destruct (MM _ H) as [M K]. split; [|exact K]. cbn [fst] in M. split.
          + apply candidate_preds_In. left. apply P. exact M.
          + apply NB, in_app_iff. left. exact H.
        - intros [[H1 H2] K]. apply NB, in_app_iff in H2. destruct H2 as [H2|H2]; [exact H2|exfalso].
          assert (I : In (k, v) values) by (apply VI; split; [exact H1|apply NB, in_app_iff; right; exact H2]).
          pose proof (KM (k, v) I K) as M. cbn [fst] in M. pose proof (proj1 (R k v H2) M) as Z. apply LK in Z. congruence. }
      destruct (Permutation_Forall2 PM F) as (cs' & PC & F'). exists cs'. split; [exact F'|].
      exact (lang_ext e _ _ (bag_of_perm _ _ PC) G).
  Qed.
End Shape.
