(** Lemmas on the graph model. *)
From Coq Require Import List Arith Bool Lia Permutation.
Import ListNotations.
From Verif Require Import GraphModel GraphSpec.

Lemma mem_In x l : mem x l = true <-> In x l.
Proof.
  unfold mem. rewrite existsb_exists. split.
  - intros (y & Hy & E). apply Nat.eqb_eq in E. subst y. exact Hy.
  - intro H. exists x. split; [exact H|apply Nat.eqb_refl].
Qed.
Lemma mem_not_In x l : mem x l = false <-> ~ In x l.
Proof.
  split; intro H.
  - intro C. apply mem_In in C. congruence.
  - destruct (mem x l) eqn:E; [|reflexivity]. exfalso. apply H. apply mem_In. exact E.
Qed.

Lemma reach_trans E a b c : reach E a b -> reach E b c -> reach E a c.
Proof. induction 1 as [a|a x b Hax Hxb IH]; intro H; [exact H|]. exact (reach_step E a x c Hax (IH H)). Qed.
Lemma reach_one (E : nat -> nat -> Prop) a b : E a b -> reach E a b.
Proof. intro H. exact (reach_step E a b b H (reach_refl E b)). Qed.
Lemma reach_flip E a b : reach E a b <-> reach (fun x y => E y x) b a.
Proof.
  split; induction 1 as [a|a x b Hax Hxb IH]; try apply reach_refl.
  - exact (reach_trans _ _ x _ IH (reach_one (fun x y => E y x) x a Hax)).
  - exact (reach_trans _ _ x _ IH (reach_one E x a Hax)).
Qed.
Lemma reach_iff (E F : nat -> nat -> Prop) a b : (forall x y, E x y <-> F x y) -> reach E a b -> reach F a b.
Proof.
  intro H. induction 1 as [a|a x b Hax Hxb IH]; [apply reach_refl|].
  exact (reach_step F a x b (proj1 (H a x) Hax) IH).
Qed.

(** * Edges *)

Section Edges.
  Context {A : Type}.

  Lemma add_edge_In (g : graph A) a b w x y v :
    NoDup (map fst g) ->
    In ((x, y), v) (add_edge g a b w) <-> (x = a /\ y = b /\ v = w) \/ (~ (x = a /\ y = b) /\ In ((x, y), v) g).
  Proof.
    induction g as [|[[a' b'] w'] r IH]; intro N.
    - simpl. split.
      + intros [H|[]]. inversion H; subst. left. auto.
      + intros [(-> & -> & ->)|[_ []]]. left. reflexivity.
    - inversion N as [|? ? N1 N2]; subst. simpl in N1.
      simpl. destruct (Nat.eqb a a' && Nat.eqb b b') eqn:E.
      + apply andb_true_iff in E. destruct E as [E1 E2]. apply Nat.eqb_eq in E1, E2. subst a' b'.
        split.
        * intros [H|H]; [inversion H; subst; left; auto|].
          right. split; [|right; exact H]. intros [-> ->]. apply N1. apply in_map_iff. exists ((a, b), v). auto.
        * intros [(-> & -> & ->)|[H [H2|H2]]]; [left; reflexivity| |right; exact H2].
          inversion H2; subst. exfalso. apply H. auto.
      + assert (NE : ~ (a = a' /\ b = b')) by (intros [-> ->]; rewrite !Nat.eqb_refl in E; discriminate).
        simpl. rewrite (IH N2). split.
        * intros [H|[H|[H1 H2]]].
          -- inversion H; subst. right. split; [|left; reflexivity]. intros [-> ->]. apply NE. auto.
          -- left. exact H.
          -- right. auto.
        * intros [H|[H1 [H2|H2]]]; [right; left; exact H|left; exact H2|right; right; auto].
  Qed.

  Lemma add_edge_keys (g : graph A) a b w x : In x (map fst (add_edge g a b w)) -> x = (a, b) \/ In x (map fst g).
  Proof.
    induction g as [|[[a' b'] w'] r IH]; simpl.
    - intros [H|[]]. left. auto.
    - destruct (Nat.eqb a a' && Nat.eqb b b') eqn:E; simpl.
      + apply andb_true_iff in E. destruct E as [E1 E2]. apply Nat.eqb_eq in E1, E2. subst a' b'.
        intros [H|H]; right; auto.
      + intros [H|H]; [right; auto|]. destruct (IH H); auto.
  Qed.

  Lemma add_edge_NoDup (g : graph A) a b w : NoDup (map fst g) -> NoDup (map fst (add_edge g a b w)).
  Proof.
    induction g as [|[[a' b'] w'] r IH]; intro N; simpl.
    - constructor; [intros []|constructor].
    - inversion N as [|? ? N1 N2]; subst. simpl in N1.
      destruct (Nat.eqb a a' && Nat.eqb b b') eqn:E; simpl.
      + apply andb_true_iff in E. destruct E as [E1 E2]. apply Nat.eqb_eq in E1, E2. subst a' b'.
        constructor; assumption.
      + constructor; [|exact (IH N2)]. intro H. apply add_edge_keys in H. destruct H as [H|H]; [|exact (N1 H)].
        inversion H; subst. rewrite !Nat.eqb_refl in E. discriminate.
  Qed.

  Lemma graph_of_snoc (es : list ((nat * nat) * A)) e :
    graph_of (es ++ [e]) = add_edge (graph_of es) (fst (fst e)) (snd (fst e)) (snd e).
  Proof. unfold graph_of. rewrite fold_left_app. reflexivity. Qed.

  Lemma graph_of_NoDup (es : list ((nat * nat) * A)) : NoDup (map fst (graph_of es)).
  Proof.
    induction es as [|e es IH] using rev_ind; [constructor|]. rewrite graph_of_snoc. apply add_edge_NoDup. exact IH.
  Qed.

  Lemma app_snoc_split {B} (es before after : list B) e x :
    es ++ [e] = before ++ x :: after ->
    (after = [] /\ es = before /\ e = x) \/ (exists a', after = a' ++ [e] /\ es = before ++ x :: a').
  Proof.
    intro H. destruct after as [|z after] using rev_ind.
    - left. apply app_inj_tail in H. destruct H. auto.
    - clear IHafter. right. exists after.
      change (before ++ x :: after ++ [z]) with (before ++ (x :: after) ++ [z]) in H. rewrite app_assoc in H.
      apply app_inj_tail in H. destruct H as [-> ->]. auto.
  Qed.

  (** the weight recorded is that of the last insertion *)
  Lemma graph_of_last (es : list ((nat * nat) * A)) a b w :
    In ((a, b), w) (graph_of es) <-> last_weight es a b w.
  Proof.
    revert a b w. induction es as [|[[c d] v] es IH] using rev_ind; intros a b w.
    - split; [intros []|]. intros (before & after & H & _). destruct before; discriminate.
    - rewrite graph_of_snoc. cbn [fst snd]. rewrite (add_edge_In _ _ _ _ _ _ _ (graph_of_NoDup es)). split.
      + intros [(-> & -> & ->)|[NE H]].
        * exists es, []. split; [reflexivity|]. intros w' [].
        * apply IH in H. destruct H as (before & after & -> & L).
          exists before, (after ++ [((c, d), v)]). split; [rewrite <- app_assoc; reflexivity|].
          intros w' Hw. apply in_app_or in Hw. destruct Hw as [Hw|[Hw|[]]]; [exact (L w' Hw)|].
          inversion Hw; subst. apply NE. auto.
      + intros (before & after & E & L). apply app_snoc_split in E.
        destruct E as [(-> & -> & E)|(a' & -> & ->)].
        * inversion E; subst. left. auto.
        * right. split.
          -- intros [-> ->]. apply (L v). apply in_or_app. right. left. reflexivity.
          -- apply IH. exists before, a'. split; [reflexivity|]. intros w' Hw. apply (L w'). apply in_or_app. auto.
  Qed.

  Lemma last_weight_exists (es : list ((nat * nat) * A)) a b w :
    In ((a, b), w) es -> exists w', last_weight es a b w'.
  Proof.
    induction es as [|[[c d] v] es IH] using rev_ind; [intros []|]. intro H.
    destruct (Nat.eq_dec a c) as [->|Ha]; [destruct (Nat.eq_dec b d) as [->|Hb]|].
    - exists v. exists es, []. split; [reflexivity|]. intros w' [].
    - apply in_app_or in H. destruct H as [H|[H|[]]]; [|inversion H; subst; contradiction].
      destruct (IH H) as (w' & before & after & -> & L). exists w', before, (after ++ [((c, d), v)]).
      split; [rewrite <- app_assoc; reflexivity|]. intros w2 Hw. apply in_app_or in Hw.
      destruct Hw as [Hw|[Hw|[]]]; [exact (L w2 Hw)|]. inversion Hw; subst; contradiction.
    - apply in_app_or in H. destruct H as [H|[H|[]]]; [|inversion H; subst; contradiction].
      destruct (IH H) as (w' & before & after & -> & L). exists w', before, (after ++ [((c, d), v)]).
      split; [rewrite <- app_assoc; reflexivity|]. intros w2 Hw. apply in_app_or in Hw.
      destruct Hw as [Hw|[Hw|[]]]; [exact (L w2 Hw)|]. inversion Hw; subst; contradiction.
  Qed.

  Lemma last_weight_In (es : list ((nat * nat) * A)) a b w : last_weight es a b w -> In ((a, b), w) es.
  Proof. intros (before & after & -> & _). apply in_or_app. right. left. reflexivity. Qed.

  (** the edges present are those inserted *)
  Lemma graph_of_edge (es : list ((nat * nat) * A)) a b : edge (graph_of es) a b <-> exists w, In ((a, b), w) es.
  Proof.
    split; intros (w & H).
    - apply graph_of_last in H. exists w. exact (last_weight_In es a b w H).
    - destruct (last_weight_exists es a b w H) as (w' & H'). exists w'. apply graph_of_last. exact H'.
  Qed.

  Lemma out_edges_In (g : graph A) a b w : In (b, w) (out_edges g a) <-> In ((a, b), w) g.
  Proof.
    unfold out_edges. rewrite in_map_iff. split.
    - intros ([[x y] v] & E & H). apply filter_In in H. destruct H as [H K]. simpl in *. apply Nat.eqb_eq in K.
      inversion E; subst. exact H.
    - intro H. exists ((a, b), w). split; [reflexivity|]. apply filter_In. split; [exact H|]. apply Nat.eqb_refl.
  Qed.
  Lemma succs_In (g : graph A) a b : In b (succs g a) <-> edge g a b.
  Proof.
    unfold succs. rewrite in_map_iff. split.
    - intros ([y w] & <- & H). exists w. apply out_edges_In. exact H.
    - intros (w & H). exists (b, w). split; [reflexivity|]. apply out_edges_In. exact H.
  Qed.
  Lemma preds_In (g : graph A) a b : In a (preds g b) <-> edge g a b.
  Proof.
    unfold preds. rewrite in_map_iff. split.
    - intros ([[x y] w] & <- & H). apply filter_In in H. destruct H as [H K]. simpl in *. apply Nat.eqb_eq in K.
      subst y. exists w. exact H.
    - intros (w & H). exists ((a, b), w). split; [reflexivity|]. apply filter_In. split; [exact H|]. apply Nat.eqb_refl.
  Qed.

  Lemma push_new_In l x y : In y (push_new l x) <-> In y l \/ y = x.
  Proof.
    unfold push_new. destruct (mem x l) eqn:E.
    - apply mem_In in E. split; [auto|]. intros [H| ->]; auto.
    - rewrite in_app_iff. simpl. intuition.
  Qed.
  Lemma push_new_NoDup l x : NoDup l -> NoDup (push_new l x).
  Proof.
    intro N. unfold push_new. destruct (mem x l) eqn:E; [exact N|]. apply mem_not_In in E.
    apply (Permutation_NoDup (l := x :: l)); [|constructor; assumption]. apply Permutation_cons_append.
  Qed.
  Lemma nodes_acc (g : graph A) l x :
    In x (fold_left (fun l e => push_new (push_new l (fst (fst e))) (snd (fst e))) g l) <->
    In x l \/ exists y, edge g x y \/ edge g y x.
  Proof.
    revert l. induction g as [|[[a b] w] g IH]; intro l; simpl.
    - split; [auto|]. intros [H|(y & [(v & [])|(v & [])])]. exact H.
    - rewrite IH, !push_new_In. simpl. split.
      + intros [[[H| ->]| ->]|(y & [(v & H)|(v & H)])].
        * left. exact H.
        * right. exists b. left. exists w. left. reflexivity.
        * right. exists a. right. exists w. left. reflexivity.
        * right. exists y. left. exists v. right. exact H.
        * right. exists y. right. exists v. right. exact H.
      + intros [H|(y & [(v & [H|H])|(v & [H|H])])].
        * left. left. left. exact H.
        * inversion H; subst. left. left. right. reflexivity.
        * right. exists y. left. exists v. exact H.
        * inversion H; subst. left. right. reflexivity.
        * right. exists y. right. exists v. exact H.
  Qed.
  Lemma nodes_In (g : graph A) x : In x (nodes g) <-> exists y, edge g x y \/ edge g y x.
  Proof. unfold nodes. rewrite nodes_acc. split; [intros [[]|H]; exact H|auto]. Qed.
  Lemma nodes_NoDup (g : graph A) : NoDup (nodes g).
  Proof.
    unfold nodes. assert (H : NoDup (@nil nat)) by constructor. revert H. generalize (@nil nat).
    induction g as [|e g IH]; intros l N; [exact N|]. simpl. apply IH. apply push_new_NoDup, push_new_NoDup. exact N.
  Qed.
End Edges.

(** * Depth first search *)

(** paths all of whose nodes are outside [disc] *)
Inductive avoid (succ : nat -> list nat) (disc : list nat) : nat -> nat -> Prop :=
| avoid_refl a : ~ In a disc -> avoid succ disc a a
| avoid_step a b c : ~ In a disc -> In b (succ a) -> avoid succ disc b c -> avoid succ disc a c.

Lemma avoid_weaken succ d d' a b : (forall x, In x d -> In x d') -> avoid succ d' a b -> avoid succ d a b.
Proof.
  intros S. induction 1 as [a H|a b c H Hs Hc IH]; [apply avoid_refl|apply (avoid_step _ _ _ b)]; auto.
Qed.
Lemma avoid_reach succ d a b : avoid succ d a b -> reach (fun x y => In y (succ x)) a b.
Proof. induction 1 as [a H|a b c H Hs Hc IH]; [apply reach_refl|]. exact (reach_step _ a b c Hs IH). Qed.
Lemma reach_avoid succ a b : reach (fun x y => In y (succ x)) a b -> avoid succ [] a b.
Proof. induction 1 as [a|a b c Hs Hc IH]; [apply avoid_refl; intros []|]. apply (avoid_step _ _ _ b); auto. Qed.
Lemma avoid_end succ d a b : avoid succ d a b -> ~ In b d.
Proof. induction 1; assumption. Qed.

Lemma dfs_sound fuel : forall succ stack disc l, dfs fuel succ stack disc = Some l ->
  NoDup l /\ (forall x, In x l -> ~ In x disc) /\
  (forall x, In x l -> exists s, In s stack /\ avoid succ disc s x) /\
  (forall x, In x stack -> In x l \/ In x disc) /\
  (forall x y, In x l -> In y (succ x) -> In y l \/ In y disc).
Proof.
  induction fuel as [|f IH]; intros succ stack disc l H; [discriminate|]. cbn [dfs] in H.
  destruct stack as [|n st].
  - inversion H; subst. split; [constructor|]. split; [intros x []|]. split; [intros x []|]. split; [intros x []|intros x y []].
  - destruct (mem n disc) eqn:E.
    + apply mem_In in E. destruct (IH _ _ _ _ H) as (N & D & A & S & C).
      split; [exact N|]. split; [exact D|]. split; [|split; [|exact C]].
      * intros x Hx. destruct (A x Hx) as (s & Hs & As). exists s. split; [right; exact Hs|exact As].
      * intros x [->|Hx]; [right; exact E|exact (S x Hx)].
    + apply mem_not_In in E.
      destruct (dfs f succ _ (n :: disc)) as [l'|] eqn:R; [|discriminate]. inversion H; subst l. clear H.
      destruct (IH _ _ _ _ R) as (N & D & A & S & C).
      split; [|split; [|split; [|split]]].
      * constructor; [|exact N]. intro Hn. apply (D n Hn). left. reflexivity.
      * intros x [<-|Hx]; [exact E|]. intro Hd. apply (D x Hx). right. exact Hd.
      * intros x [<-|Hx].
        -- exists n. split; [left; reflexivity|]. apply avoid_refl. exact E.
        -- destruct (A x Hx) as (s & Hs & As). apply in_app_or in Hs. destruct Hs as [Hs|Hs].
           ++ apply in_rev in Hs. apply filter_In in Hs. destruct Hs as [Hs _]. exists n. split; [left; reflexivity|].
              apply (avoid_step _ _ _ s); [exact E|exact Hs|]. apply (avoid_weaken _ _ (n :: disc)); [intros z Hz; right; exact Hz|exact As].
           ++ exists s. split; [right; exact Hs|]. apply (avoid_weaken _ _ (n :: disc)); [intros z Hz; right; exact Hz|exact As].
      * intros x [<-|Hx]; [left; left; reflexivity|].
        destruct (S x) as [H|[H|H]]; [apply in_or_app; right; exact Hx| | |].
        -- left. right. exact H.
        -- left. left. exact H.
        -- right. exact H.
      * intros x y [<-|Hx] Hy.
        -- destruct (mem y (n :: disc)) eqn:M.
           ++ apply mem_In in M. destruct M as [M|M]; [left; left; exact M|right; exact M].
           ++ destruct (S y) as [H|[H|H]].
              ** apply in_or_app. left. apply -> in_rev. apply filter_In. split; [exact Hy|]. rewrite M. reflexivity.
              ** left. right. exact H.
              ** left. left. exact H.
              ** right. exact H.
        -- destruct (C x y Hx Hy) as [H|[H|H]]; [left; right; exact H|left; left; exact H|right; exact H].
Qed.

(** what a search produces: the nodes reached from the stack outside the discovered ones *)
Lemma dfs_spec fuel succ stack disc l x : dfs fuel succ stack disc = Some l ->
  In x l <-> exists s, In s stack /\ avoid succ disc s x.
Proof.
  intro H. destruct (dfs_sound fuel succ stack disc l H) as (N & D & A & S & C). split; [apply A|].
  intros (s & Hs & As).
  assert (In s l) as Hl.
  { destruct (S s Hs) as [K|K]; [exact K|]. exfalso. inversion As; subst; contradiction. }
  clear Hs. induction As as [a Ha|a b c Ha Hb As IH]; [exact Hl|]. apply IH.
  destruct (C a b Hl Hb) as [K|K]; [exact K|]. exfalso. inversion As; subst; contradiction.
Qed.

Lemma dfs_more fuel : forall succ stack disc l fuel', fuel <= fuel' ->
  dfs fuel succ stack disc = Some l -> dfs fuel' succ stack disc = Some l.
Proof.
  induction fuel as [|f IH]; intros succ stack disc l fuel' L H; [discriminate|].
  destruct fuel' as [|f']; [lia|]. cbn [dfs] in *. destruct stack as [|n st]; [exact H|].
  destruct (mem n disc).
  - apply IH; [lia|exact H].
  - destruct (dfs f succ _ (n :: disc)) as [l'|] eqn:R; [|discriminate].
    rewrite (IH _ _ _ _ f' ltac:(lia) R). exact H.
Qed.

(** how much of a finite universe is undiscovered *)
Definition left_over (U disc : list nat) : nat := length (filter (fun x => negb (mem x disc)) U).
Lemma filter_length_le {B} (p q : B -> bool) l : (forall x, In x l -> p x = true -> q x = true) ->
  length (filter p l) <= length (filter q l).
Proof.
  induction l as [|x l IH]; intro H; [constructor|]. simpl.
  assert (length (filter p l) <= length (filter q l)) as L by (apply IH; intros y Hy; apply H; right; exact Hy).
  destruct (p x) eqn:P.
  - rewrite (H x (or_introl eq_refl) P). simpl. lia.
  - destruct (q x); simpl; lia.
Qed.
Lemma filter_length_lt {B} (p q : B -> bool) l y : (forall x, In x l -> p x = true -> q x = true) ->
  In y l -> p y = false -> q y = true -> length (filter p l) < length (filter q l).
Proof.
  induction l as [|x l IH]; intros H Hy P Q; [destruct Hy|]. simpl.
  assert (length (filter p l) <= length (filter q l)) as L by (apply filter_length_le; intros z Hz; apply H; right; exact Hz).
  destruct Hy as [->|Hy].
  - rewrite P, Q. simpl. lia.
  - assert (length (filter p l) < length (filter q l)) by (apply IH; auto; intros z Hz; apply H; right; exact Hz).
    destruct (p x) eqn:Px; [rewrite (H x (or_introl eq_refl) Px); simpl; lia|]. destruct (q x); simpl; lia.
Qed.
Lemma left_over_lt U disc n : In n U -> ~ In n disc -> left_over U (n :: disc) < left_over U disc.
Proof.
  intros Hn Hd. apply (filter_length_lt _ _ U n).
  - intros x _ H. apply negb_true_iff, mem_not_In in H. apply negb_true_iff, mem_not_In. intro C. apply H. right. exact C.
  - exact Hn.
  - apply negb_false_iff, mem_In. left. reflexivity.
  - apply negb_true_iff, mem_not_In. exact Hd.
Qed.

Lemma dfs_total (U : list nat) succ :
  (forall x y, In x U -> In y (succ x) -> In y U) ->
  forall disc stack, (forall x, In x stack -> In x U) -> exists fuel l, dfs fuel succ stack disc = Some l.
Proof.
  intros CL disc. remember (left_over U disc) as k eqn:K. revert disc K.
  induction k as [k IHk] using lt_wf_ind. intros disc K stack. induction stack as [|n st IHs]; intro HS.
  - exists 1, []. reflexivity.
  - destruct (mem n disc) eqn:E.
    + destruct IHs as (f & l & H); [intros x Hx; apply HS; right; exact Hx|]. exists (S f), l. cbn [dfs]. rewrite E. exact H.
    + pose proof E as E'. apply mem_not_In in E'.
      assert (HnU : In n U) by (apply HS; left; reflexivity).
      destruct (IHk (left_over U (n :: disc)) ltac:(subst k; apply left_over_lt; assumption) (n :: disc) eq_refl
                  (rev (filter (fun s => negb (mem s (n :: disc))) (succ n)) ++ st)) as (f & l & H).
      { intros x Hx. apply in_app_or in Hx. destruct Hx as [Hx|Hx]; [|apply HS; right; exact Hx].
        apply in_rev in Hx. apply filter_In in Hx. destruct Hx as [Hx _]. exact (CL n x HnU Hx). }
      exists (S f), (n :: l). cbn [dfs]. rewrite E, H. reflexivity.
Qed.

(** ** The queries of the inheritance graph *)
Lemma graph_universe {A} (g : graph A) node :
  (forall x y, In x (node :: nodes g) -> In y (succs g x) -> In y (node :: nodes g)) /\
  (forall x y, In x (node :: nodes g) -> In y (preds g x) -> In y (node :: nodes g)).
Proof.
  split; intros x y _ H; right; apply nodes_In; exists x.
  - right. apply succs_In. exact H.
  - left. apply preds_In. exact H.
Qed.

Lemma parents_spec (g : graph unit) node :
  (exists fuel l, parents fuel g node = Some l) /\
  (forall fuel l, parents fuel g node = Some l -> NoDup l /\ forall x, In x l <-> x <> node /\ reach (edge g) node x).
Proof.
  split.
  - destruct (dfs_total (node :: nodes g) (succs g) (proj1 (graph_universe g node)) [] [node]) as (f & l & H).
    { intros x [->|[]]. left. reflexivity. }
    unfold parents. eexists f, _. rewrite H. reflexivity.
  - intros fuel l H. unfold parents in H. destruct (dfs fuel (succs g) [node] []) as [l'|] eqn:E; [|discriminate].
    inversion H; subst l. split; [apply NoDup_filter; apply (dfs_sound _ _ _ _ _ E)|].
    intro x. rewrite filter_In, (dfs_spec _ _ _ _ _ x E), negb_true_iff, Nat.eqb_neq. split.
    + intros [(s & [<-|[]] & A) NE]. split; [exact NE|]. apply avoid_reach in A.
      apply (reach_iff (fun x y => In y (succs g x))); [intros; apply succs_In|exact A].
    + intros [NE R]. split; [|exact NE]. exists node. split; [left; reflexivity|]. apply reach_avoid.
      apply (reach_iff (edge g)); [intros; symmetry; apply succs_In|exact R].
Qed.

Lemma descendants_spec (g : graph unit) node :
  (exists fuel l, descendants fuel g node = Some l) /\
  (forall fuel l, descendants fuel g node = Some l -> NoDup l /\ forall x, In x l <-> x <> node /\ reach (edge g) x node).
Proof.
  split.
  - destruct (dfs_total (node :: nodes g) (preds g) (proj2 (graph_universe g node)) [] [node]) as (f & l & H).
    { intros x [->|[]]. left. reflexivity. }
    unfold descendants. eexists f, _. rewrite H. reflexivity.
  - intros fuel l H. unfold descendants in H. destruct (dfs fuel (preds g) [node] []) as [l'|] eqn:E; [|discriminate].
    inversion H; subst l. split; [apply NoDup_filter; apply (dfs_sound _ _ _ _ _ E)|].
    intro x. rewrite filter_In, (dfs_spec _ _ _ _ _ x E), negb_true_iff, Nat.eqb_neq. split.
    + intros [(s & [<-|[]] & A) NE]. split; [exact NE|]. apply avoid_reach in A. apply reach_flip.
      apply (reach_iff (fun x y => In y (preds g x))); [intros; apply preds_In|exact A].
    + intros [NE R]. split; [|exact NE]. exists node. split; [left; reflexivity|]. apply reach_avoid.
      apply reach_flip in R. apply (reach_iff (fun x y => edge g y x)); [intros; symmetry; apply preds_In|exact R].
Qed.

(** * Negative cycles *)
Lemma first_neg_In component node es a b c :
  In (a, b, c) (first_neg component node es) -> a = node /\ c = component /\ In b component /\ In (b, Neg) es.
Proof.
  induction es as [|[t w] es IH]; simpl; [intros []|].
  destruct (mem t component && is_neg w) eqn:E.
  - apply andb_true_iff in E. destruct E as [E1 E2]. apply mem_In in E1. destruct w; [discriminate|].
    intros [H|[]]. inversion H; subst. auto.
  - intro H. destruct (IH H) as (? & ? & ? & ?). auto.
Qed.
Lemma first_neg_some component node es b :
  In b component -> In (b, Neg) es -> first_neg component node es <> [].
Proof.
  intros Hb. induction es as [|[t w] es IH]; simpl; [intros []|].
  destruct (mem t component && is_neg w) eqn:E; [discriminate|].
  intros [H|H]; [|exact (IH H)]. inversion H; subst. exfalso.
  apply andb_false_iff in E. destruct E as [E|E]; [|discriminate]. apply mem_not_In in E. contradiction.
Qed.

Lemma has_neg_cycle_spec (g : graph posneg) scc :
  is_scc (edge g) (nodes g) scc ->
  has_neg_cycle g scc = true <-> cycle_through (edge g) (fun a b => In ((a, b), Neg) g).
Proof.
  intros [P S]. unfold has_neg_cycle. split.
  - destruct (neg_cycles g scc) as [|c r] eqn:E; [discriminate|]. intros _.
    assert (H : In c (neg_cycles g scc)) by (rewrite E; left; reflexivity).
    unfold neg_cycles in H. apply in_flat_map in H. destruct H as (comp & Hc & H).
    destruct (neg_cycle g comp) as [|x y] eqn:F; [destruct H|].
    assert (Hx : In x (neg_cycle g comp)) by (rewrite F; left; reflexivity).
    unfold neg_cycle in Hx. apply in_flat_map in Hx. destruct Hx as (n & Hn & Hx). destruct x as [[a b] c0].
    apply first_neg_In in Hx. destruct Hx as (-> & _ & Hb & He). apply out_edges_In in He.
    exists n, b. assert (Ee : edge g n b) by (exists Neg; exact He). split; [exact He|]. split; [exact Ee|].
    apply (S comp n b Hc Hn); [|exact Hb]. apply nodes_In. exists n. right. exact Ee.
  - intros (a & b & N & E & R).
    assert (Ha : In a (nodes g)) by (apply nodes_In; exists b; left; exact E).
    assert (Hb : In b (nodes g)) by (apply nodes_In; exists a; right; exact E).
    assert (Ha' : In a (concat scc)) by (apply (Permutation_in a (Permutation_sym P)); exact Ha).
    apply in_concat in Ha'. destruct Ha' as (comp & Hc & Hac).
    assert (Hbc : In b comp) by (apply (S comp a b Hc Hac Hb); split; [apply reach_one; exact E|exact R]).
    assert (neg_cycle g comp <> []) as NN.
    { intro Z. assert (HZ : first_neg comp a (out_edges g a) = []).
      { destruct (first_neg comp a (out_edges g a)) as [|z zs] eqn:Ez; [reflexivity|]. exfalso.
        assert (Hz : In z (neg_cycle g comp)).
        { unfold neg_cycle. apply in_flat_map. exists a. split; [exact Hac|]. rewrite Ez. left. reflexivity. }
        rewrite Z in Hz. destruct Hz. }
      apply (first_neg_some comp a (out_edges g a) b Hbc); [|exact HZ]. apply out_edges_In. exact N. }
    destruct (neg_cycles g scc) as [|c r] eqn:Ec; [|reflexivity]. exfalso.
    assert (In (neg_cycle g comp) (neg_cycles g scc)) as HI.
    { unfold neg_cycles. apply in_flat_map. exists comp. split; [exact Hc|].
      destruct (neg_cycle g comp); [contradiction|]. left. reflexivity. }
    rewrite Ec in HI. destruct HI.
Qed.
