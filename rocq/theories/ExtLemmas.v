(** Lemmas on extend alternatives. *)
From Coq Require Import List Arith Bool Lia.
Import ListNotations.
From Verif Require Import GraphModel GraphLemmas ExtModel ExtSpec.

Definition un (a b : list nat) : list nat := fold_left push_unique b a.

Lemma push_unique_In v x y : In y (push_unique v x) <-> In y v \/ y = x.
Proof. exact (push_new_In v x y). Qed.
Lemma un_In b : forall a y, In y (un a b) <-> In y a \/ In y b.
Proof.
  induction b as [|x b IH]; intros a y; simpl; [tauto|]. change (un a (x :: b)) with (un (push_unique a x) b).
  rewrite IH, push_unique_In. intuition.
Qed.
Lemma un_NoDup b : forall a, NoDup a -> NoDup (un a b).
Proof.
  induction b as [|x b IH]; intros a N; [exact N|]. change (un a (x :: b)) with (un (push_unique a x) b).
  apply IH. exact (push_new_NoDup a x N).
Qed.
Lemma un_absorb b : forall a, (forall x, In x b -> In x a) -> un a b = a.
Proof.
  induction b as [|x b IH]; intros a H; [reflexivity|]. change (un a (x :: b)) with (un (push_unique a x) b).
  assert (E : push_unique a x = a).
  { unfold push_unique. assert (mem x a = true) as -> by (apply mem_In; apply H; left; reflexivity). reflexivity. }
  rewrite E. apply IH. intros y Hy. apply H. right. exact Hy.
Qed.
Lemma un_app a b c : un a (b ++ c) = un (un a b) c.
Proof. unfold un. apply fold_left_app. Qed.

(** the union as the first list followed by what is new in the second *)
Definition fresh (a b : list nat) : list nat := filter (fun y => negb (mem y a)) (firsts b).

Lemma filter_filter {B} (p q : B -> bool) l : filter p (filter q l) = filter (fun x => q x && p x) l.
Proof.
  induction l as [|x l IH]; [reflexivity|]. simpl. destruct (q x) eqn:Q; simpl; [|exact IH].
  destruct (p x) eqn:P; [rewrite IH; reflexivity|exact IH].
Qed.

Lemma mem_snoc a x y : mem y (a ++ [x]) = mem y a || Nat.eqb y x.
Proof. unfold mem. rewrite existsb_app. simpl. rewrite orb_false_r. reflexivity. Qed.

Lemma un_fresh b : forall a, un a b = a ++ fresh a b.
Proof.
  induction b as [|x b IH]; intro a.
  - unfold fresh. simpl. rewrite app_nil_r. reflexivity.
  - change (un a (x :: b)) with (un (push_unique a x) b). rewrite IH. unfold push_unique, fresh. simpl.
    destruct (mem x a) eqn:E; cbn [negb].
    + f_equal. rewrite filter_filter. apply filter_ext_in. intros y _.
      destruct (Nat.eqb y x) eqn:F; [apply Nat.eqb_eq in F; subst y; rewrite E; reflexivity|reflexivity].
    + rewrite <- app_assoc. f_equal. simpl. f_equal. rewrite filter_filter. apply filter_ext_in. intros y _.
      rewrite mem_snoc. destruct (mem y a), (Nat.eqb y x); reflexivity.
Qed.
Lemma firsts_In l x : In x (firsts l) <-> In x l.
Proof.
  induction l as [|y l IH]; [reflexivity|]. simpl. rewrite filter_In, IH, negb_true_iff, Nat.eqb_neq. split; [intuition|].
  intros [->|H]; [left; reflexivity|]. destruct (Nat.eq_dec x y) as [->|NE]; [left; reflexivity|right; auto].
Qed.
Lemma firsts_NoDup l : NoDup (firsts l).
Proof.
  induction l as [|y l IH]; [constructor|]. simpl. constructor; [|apply NoDup_filter; exact IH].
  intro H. apply filter_In in H. destruct H as [_ H]. rewrite Nat.eqb_refl in H. discriminate.
Qed.
Lemma filter_true {B} (p : B -> bool) l : (forall x, In x l -> p x = true) -> filter p l = l.
Proof.
  induction l as [|x l IH]; intro H; [reflexivity|]. simpl. rewrite (H x (or_introl eq_refl)).
  f_equal. apply IH. intros y Hy. apply H. right. exact Hy.
Qed.
Lemma firsts_id l : NoDup l -> firsts l = l.
Proof.
  induction 1 as [|x l H N IH]; [reflexivity|]. simpl. rewrite IH. f_equal. apply filter_true.
  intros y Hy. apply negb_true_iff, Nat.eqb_neq. intros ->. exact (H Hy).
Qed.
Lemma firsts_app a b : firsts (a ++ b) = firsts a ++ filter (fun y => negb (mem y a)) (firsts b).
Proof.
  induction a as [|x a IH]; simpl.
  - symmetry. apply filter_true. reflexivity.
  - rewrite IH, filter_app. f_equal. f_equal. rewrite filter_filter. apply filter_ext_in. intros y _.
    simpl. destruct (mem y a), (Nat.eqb y x); reflexivity.
Qed.
Lemma un_firsts a b : NoDup a -> un a b = firsts (a ++ b).
Proof. intro N. rewrite un_fresh, firsts_app, (firsts_id a N). reflexivity. Qed.
Lemma un_assoc a b c : un (un a b) c = un a (un b c).
Proof.
  rewrite (un_fresh c b), un_app. rewrite (un_fresh c (un a b)), (un_fresh (fresh b c) (un a b)). f_equal.
  unfold fresh. rewrite (firsts_id (filter _ (firsts c))) by (apply NoDup_filter, firsts_NoDup).
  rewrite filter_filter. apply filter_ext_in. intros y _.
  destruct (mem y b) eqn:E; cbn [negb andb]; [|reflexivity].
  apply negb_false_iff. apply mem_In. apply un_In. right. apply mem_In. exact E.
Qed.

(** * constraints *)
Definition cun (a b : list scoped) : list scoped := fold_left push_unique_constraint b a.

Lemma puc_exprs v c : map sc_expr (push_unique_constraint v c) = push_unique (map sc_expr v) (sc_expr c).
Proof.
  induction v as [|e v IH]; [reflexivity|]. simpl. unfold push_unique. simpl.
  rewrite (Nat.eqb_sym (sc_expr c)). destruct (Nat.eqb (sc_expr e) (sc_expr c)) eqn:E; simpl; [reflexivity|].
  rewrite IH. unfold push_unique. destruct (mem (sc_expr c) (map sc_expr v)); reflexivity.
Qed.
Lemma cun_exprs b : forall a, map sc_expr (cun a b) = un (map sc_expr a) (map sc_expr b).
Proof.
  induction b as [|c b IH]; intro a; [reflexivity|]. change (cun a (c :: b)) with (cun (push_unique_constraint a c) b).
  rewrite IH, puc_exprs. reflexivity.
Qed.

(** the scope recorded for an expression *)
Fixpoint scope (v : list scoped) (x : nat) : option (list nat) :=
  match v with
  | [] => None
  | e :: r => if Nat.eqb (sc_expr e) x then Some (sc_scope e) else scope r x
  end.
Lemma scope_none v x : scope v x = None <-> ~ In x (map sc_expr v).
Proof.
  induction v as [|e v IH]; simpl; [tauto|]. destruct (Nat.eqb (sc_expr e) x) eqn:E.
  - apply Nat.eqb_eq in E. split; [discriminate|]. intro H. exfalso. apply H. left. exact E.
  - apply Nat.eqb_neq in E. rewrite IH. tauto.
Qed.
(** a list of constraints with distinct expressions is determined by its expressions and scopes *)
Lemma scoped_ext v w : NoDup (map sc_expr v) -> map sc_expr v = map sc_expr w -> (forall x, scope v x = scope w x) -> v = w.
Proof.
  revert w. induction v as [|e v IH]; intros w N E H; destruct w as [|f w]; try discriminate; [reflexivity|].
  simpl in E. injection E as E1 E2. simpl in N. inversion N as [|? ? N1 N2]; subst.
  assert (e = f).
  { pose proof (H (sc_expr e)) as K. simpl in K. rewrite Nat.eqb_refl, <- E1, Nat.eqb_refl in K. injection K as K.
    destruct e as [e1 e2], f as [f1 f2]. simpl in *. congruence. }
  subst f. f_equal. apply IH; [exact N2|exact E2|]. intro x. specialize (H x). simpl in H.
  destruct (Nat.eqb (sc_expr e) x) eqn:Ex; [|exact H]. apply Nat.eqb_eq in Ex. subst x.
  transitivity (@None (list nat)); [apply scope_none; exact N1|]. symmetry. apply scope_none. rewrite <- E2. exact N1.
Qed.

Lemma puc_scope v c x : scope (push_unique_constraint v c) x =
  if Nat.eqb (sc_expr c) x then Some (match scope v x with None => sc_scope c | Some s => un s (sc_scope c) end) else scope v x.
Proof.
  induction v as [|e v IH]; simpl.
  - destruct (Nat.eqb (sc_expr c) x); reflexivity.
  - destruct (Nat.eqb (sc_expr e) (sc_expr c)) eqn:E; simpl.
    + apply Nat.eqb_eq in E. rewrite E. destruct (Nat.eqb (sc_expr c) x); reflexivity.
    + rewrite IH. destruct (Nat.eqb (sc_expr e) x) eqn:F; [|reflexivity].
      apply Nat.eqb_eq in F. subst x. apply Nat.eqb_neq in E. destruct (Nat.eqb (sc_expr c) (sc_expr e)) eqn:G; [|reflexivity].
      apply Nat.eqb_eq in G. congruence.
Qed.
Definition join (s t : option (list nat)) : option (list nat) :=
  match s, t with
  | Some s, Some t => Some (un s t)
  | Some s, None => Some s
  | None, t => t
  end.
Lemma join_assoc s t u : join (join s t) u = join s (join t u).
Proof. destruct s as [s|], t as [t|], u as [u|]; simpl; try reflexivity. rewrite un_assoc. reflexivity. Qed.

Lemma cun_scope b : forall a x, NoDup (map sc_expr b) -> scope (cun a b) x = join (scope a x) (scope b x).
Proof.
  induction b as [|c b IH]; intros a x N.
  - simpl. destruct (scope a x); reflexivity.
  - simpl in N. inversion N as [|? ? N1 N2]; subst. change (cun a (c :: b)) with (cun (push_unique_constraint a c) b).
    rewrite (IH _ _ N2), puc_scope. simpl. destruct (Nat.eqb (sc_expr c) x) eqn:E; [|reflexivity].
    apply Nat.eqb_eq in E. subst x. assert (scope b (sc_expr c) = None) as -> by (apply scope_none; exact N1).
    destruct (scope a (sc_expr c)); reflexivity.
Qed.
Lemma cun_NoDup a b : NoDup (map sc_expr a) -> NoDup (map sc_expr (cun a b)).
Proof. intro N. rewrite cun_exprs. apply un_NoDup. exact N. Qed.

Lemma puc_scopes_NoDup v c : (forall e, In e v -> NoDup (sc_scope e)) -> NoDup (sc_scope c) ->
  forall e, In e (push_unique_constraint v c) -> NoDup (sc_scope e).
Proof.
  intros Hv Hc. induction v as [|d v IH]; simpl; intros e He.
  - destruct He as [<-|[]]. exact Hc.
  - destruct (Nat.eqb (sc_expr d) (sc_expr c)); destruct He as [<-|He].
    + cbn [sc_scope]. apply un_NoDup. apply Hv. left. reflexivity.
    + apply Hv. right. exact He.
    + apply Hv. left. reflexivity.
    + apply IH; [|exact He]. intros x Hx. apply Hv. right. exact Hx.
Qed.
Lemma cun_scopes_NoDup b : forall a, (forall e, In e a -> NoDup (sc_scope e)) -> (forall e, In e b -> NoDup (sc_scope e)) ->
  forall e, In e (cun a b) -> NoDup (sc_scope e).
Proof.
  induction b as [|c b IH]; intros a Ha Hb; [exact Ha|]. change (cun a (c :: b)) with (cun (push_unique_constraint a c) b).
  apply IH; [|intros e He; apply Hb; right; exact He]. apply puc_scopes_NoDup; [exact Ha|]. apply Hb. left. reflexivity.
Qed.

Lemma merge_no_repeats a b : no_repeats a -> no_repeats b -> no_repeats (merge a b).
Proof.
  intros (A1 & A2 & A3) (B1 & B2 & B3). split; [|split]; cbn [merge a_buckets a_constraints].
  - apply (un_NoDup (a_buckets b)). exact A1.
  - apply (cun_NoDup _ (a_constraints b)). exact A2.
  - apply cun_scopes_NoDup; assumption.
Qed.
Lemma scoped_no_repeats a l : no_repeats a -> no_repeats (with_scoped_constraints a l).
Proof.
  intros (A1 & A2 & A3). split; [exact A1|]. cbn [with_scoped_constraints a_constraints].
  revert A2 A3. generalize (a_constraints a). induction l as [|x l IH]; intros cs A2 A3; [split; assumption|].
  simpl. apply IH.
  - rewrite puc_exprs. exact (push_new_NoDup _ _ A2).
  - apply puc_scopes_NoDup; [exact A3|exact A1].
Qed.
Lemma made_no_repeats a : made a -> no_repeats a.
Proof.
  induction 1 as [|i|i|a l H IH|a b Ha IHa Hb IHb].
  - split; [constructor|]. split; [constructor|intros c []].
  - split; [constructor; [intros []|constructor]|]. split; [constructor|intros c []].
  - split; [constructor|]. split; [constructor; [intros []|constructor]|]. intros c [<-|[]]. constructor.
  - apply scoped_no_repeats. exact IH.
  - apply merge_no_repeats; assumption.
Qed.

Lemma merge_assoc a b c : no_repeats a -> no_repeats b -> no_repeats c -> merge (merge a b) c = merge a (merge b c).
Proof.
  intros (A1 & A2 & A3) (B1 & B2 & B3) (C1 & C2 & C3). unfold merge. cbn [a_buckets a_constraints]. f_equal.
  - exact (un_assoc (a_buckets a) (a_buckets b) (a_buckets c)).
  - change (cun (cun (a_constraints a) (a_constraints b)) (a_constraints c) = cun (a_constraints a) (cun (a_constraints b) (a_constraints c))).
    apply scoped_ext.
    + apply cun_NoDup, cun_NoDup. exact A2.
    + rewrite !cun_exprs. apply un_assoc.
    + intro x. rewrite !cun_scope; try assumption; [apply join_assoc|apply cun_NoDup; exact B2].
Qed.
Lemma merge_idem a : no_repeats a -> merge a a = a.
Proof.
  intros (A1 & A2 & A3). destruct a as [bs cs]. cbn [a_buckets a_constraints] in *. unfold merge. cbn [a_buckets a_constraints]. f_equal.
  - apply (un_absorb bs bs). auto.
  - change (cun cs cs = cs). apply scoped_ext.
    + apply cun_NoDup. exact A2.
    + rewrite cun_exprs. apply un_absorb. auto.
    + intro x. rewrite (cun_scope cs cs x A2). destruct (scope cs x) as [s|]; [|reflexivity]. simpl. f_equal. apply un_absorb. auto.
Qed.
Lemma merge_default a : merge a alt_default = a /\ (no_repeats a -> merge alt_default a = a).
Proof.
  split; [destruct a; reflexivity|]. intros (A1 & A2 & A3). destruct a as [bs cs]. cbn [a_buckets a_constraints] in *.
  unfold merge, alt_default. cbn [a_buckets a_constraints]. f_equal.
  - change (un [] bs = bs). rewrite un_firsts by constructor. apply firsts_id. exact A1.
  - change (cun [] cs = cs). apply scoped_ext.
    + apply cun_NoDup. constructor.
    + rewrite cun_exprs, un_firsts by constructor. apply firsts_id. exact A2.
    + intro x. rewrite (cun_scope cs [] x A2). reflexivity.
Qed.

Lemma scope_scopes v x s : NoDup (map sc_expr v) -> scope v x = Some s -> scopes_of x v = s.
Proof.
  induction v as [|e v IH]; intros N H; [discriminate|]. simpl in N. inversion N as [|? ? N1 N2]; subst.
  unfold scopes_of. simpl in *. destruct (Nat.eqb (sc_expr e) x) eqn:E.
  - injection H as <-. simpl. apply Nat.eqb_eq in E. subst x.
    assert (Z : scopes_of (sc_expr e) v = []); [|fold (scopes_of (sc_expr e) v); rewrite Z; apply app_nil_r].
    unfold scopes_of. clear -N1. induction v as [|f v IH]; [reflexivity|]. simpl in *.
    destruct (Nat.eqb (sc_expr f) (sc_expr e)) eqn:F; [apply Nat.eqb_eq in F; exfalso; apply N1; left; exact F|].
    apply IH. intro K. apply N1. right. exact K.
  - exact (IH N2 H).
Qed.
Lemma scope_In v c : NoDup (map sc_expr v) -> In c v -> scope v (sc_expr c) = Some (sc_scope c).
Proof.
  induction v as [|e v IH]; intros N H; [destruct H|]. simpl in N. inversion N as [|? ? N1 N2]; subst. simpl.
  destruct H as [<-|H]; [rewrite Nat.eqb_refl; reflexivity|].
  destruct (Nat.eqb (sc_expr e) (sc_expr c)) eqn:E; [|exact (IH N2 H)].
  apply Nat.eqb_eq in E. exfalso. apply N1. rewrite E. apply in_map. exact H.
Qed.
Lemma scope_exists v x s : scope v x = Some s -> exists c, In c v /\ sc_expr c = x /\ sc_scope c = s.
Proof.
  induction v as [|e v IH]; simpl; [discriminate|]. destruct (Nat.eqb (sc_expr e) x) eqn:E.
  - intro H. injection H as <-. apply Nat.eqb_eq in E. exists e. split; [left; reflexivity|]. auto.
  - intro H. destruct (IH H) as (c & Hc & K). exists c. split; [right; exact Hc|exact K].
Qed.
Lemma scopes_app x v w : scopes_of x (v ++ w) = scopes_of x v ++ scopes_of x w.
Proof. unfold scopes_of. rewrite filter_app, map_app, concat_app. reflexivity. Qed.
Lemma scopes_none v x : scope v x = None -> scopes_of x v = [].
Proof.
  induction v as [|e v IH]; [reflexivity|]. unfold scopes_of. simpl. destruct (Nat.eqb (sc_expr e) x); [discriminate|exact IH].
Qed.
Lemma scope_NoDup v x s : (forall c, In c v -> NoDup (sc_scope c)) -> scope v x = Some s -> NoDup s.
Proof. intros H E. destruct (scope_exists v x s E) as (c & Hc & _ & <-). exact (H c Hc). Qed.

Lemma merge_scopes a b c : no_repeats a -> no_repeats b -> In c (a_constraints (merge a b)) ->
  sc_scope c = firsts (scopes_of (sc_expr c) (a_constraints a ++ a_constraints b)).
Proof.
  intros (A1 & A2 & A3) (B1 & B2 & B3) Hc. cbn [merge a_constraints] in Hc.
  change (In c (cun (a_constraints a) (a_constraints b))) in Hc.
  pose proof (scope_In _ c (cun_NoDup _ (a_constraints b) A2) Hc) as K. rewrite (cun_scope _ _ _ B2) in K.
  rewrite scopes_app.
  destruct (scope (a_constraints a) (sc_expr c)) as [s|] eqn:Ea; destruct (scope (a_constraints b) (sc_expr c)) as [t|] eqn:Eb;
    simpl in K; try discriminate; injection K as <-.
  - rewrite (scope_scopes _ _ _ A2 Ea), (scope_scopes _ _ _ B2 Eb). apply un_firsts. exact (scope_NoDup _ _ _ A3 Ea).
  - rewrite (scope_scopes _ _ _ A2 Ea), (scopes_none _ _ Eb), app_nil_r. symmetry. apply firsts_id. exact (scope_NoDup _ _ _ A3 Ea).
  - rewrite (scopes_none _ _ Ea), (scope_scopes _ _ _ B2 Eb). symmetry. apply firsts_id. exact (scope_NoDup _ _ _ B3 Eb).
Qed.
