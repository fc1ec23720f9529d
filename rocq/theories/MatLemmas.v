(** Lemmas about materialising graphs. *)
From Coq Require Import List Arith Bool ZArith Lia Permutation.
Import ListNotations.
From Verif Require Import EngineModel EngineSpec CompModel CompSpec MatModel MatSpec.

(** ** expressions without inclusions are their own unfolding *)
Section Unfold.
  Variable L : nat -> ate -> Prop.
  Fixpoint unfold_self (e : ase) : no_inclusion e -> unfold_se L e e
  with unfold_self_te (e : ate) : no_inclusion_te e -> unfold_te L e e.
  Proof.
    - destruct e as [l|l|e|ps|closed extra [te|] extends| |r]; cbn; intro H; try (constructor; fail).
      + constructor. revert H. induction l as [|e r IH]; intro H; constructor; [apply unfold_self, H|apply IH, H].
      + constructor. revert H. induction l as [|e r IH]; intro H; constructor; [apply unfold_self, H|apply IH, H].
      + constructor. apply unfold_self, H.
      + constructor. apply unfold_self_te, H.
    - destruct e as [id l mn mx acts|id l mn mx acts|id inv p [v|] mn mx acts|r]; cbn; intro H; try (constructor; fail).
      + constructor. revert H. induction l as [|e r IH]; intro H; constructor; [apply unfold_self_te, H|apply IH, H].
      + constructor. revert H. induction l as [|e r IH]; intro H; constructor; [apply unfold_self_te, H|apply IH, H].
      + constructor. apply unfold_self, H.
      + destruct H.
  Qed.
  Fixpoint unfold_only (e : ase) : forall e', no_inclusion e -> unfold_se L e e' -> e' = e
  with unfold_only_te (e : ate) : forall e', no_inclusion_te e -> unfold_te L e e' -> e' = e.
  Proof.
    - intros e' N U. destruct e as [l|l|e|ps|closed extra [te|] extends| |r]; cbn in N; inversion U; subst; try reflexivity; f_equal.
      + clear U. revert l' N H0. induction l as [|e r IH]; intros l' N H; inversion H; subst; [reflexivity|]. f_equal; [apply unfold_only; [apply N|assumption]|apply IH; [apply N|assumption]].
      + clear U. revert l' N H0. induction l as [|e r IH]; intros l' N H; inversion H; subst; [reflexivity|]. f_equal; [apply unfold_only; [apply N|assumption]|apply IH; [apply N|assumption]].
      + apply unfold_only; assumption.
      + f_equal. apply unfold_only_te; assumption.
    - intros e' N U. destruct e as [id l mn mx acts|id l mn mx acts|id inv p [v|] mn mx acts|r]; cbn in N; inversion U; subst; try reflexivity; try (destruct N; fail); f_equal.
      + clear U. revert l' N H5. induction l as [|e r IH]; intros l' N H; inversion H; subst; [reflexivity|]. f_equal; [apply unfold_only_te; [apply N|assumption]|apply IH; [apply N|assumption]].
      + clear U. revert l' N H5. induction l as [|e r IH]; intros l' N H; inversion H; subst; [reflexivity|]. f_equal; [apply unfold_only_te; [apply N|assumption]|apply IH; [apply N|assumption]].
      + f_equal. apply unfold_only; assumption.
  Qed.
End Unfold.

Lemma defines_declared sch l e : (forall l e, declared [] sch l e -> no_inclusion e) -> (defines [] sch l e <-> declared [] sch l e).
Proof.
  intro N. split.
  - intros (e0 & D & U). rewrite (unfold_only _ e0 e (N l e0 D) U). exact D.
  - intro D. exists e. split; [exact D|]. apply unfold_self. exact (N l e D).
Qed.

(** ** triples *)
Lemma same_triple_eq t u : same_triple t u = true <-> t = u.
Proof.
  destruct t as [[s p] o], u as [[s' p'] o']. unfold same_triple. rewrite !andb_true_iff, !Nat.eqb_eq. split; [intros [[-> ->] ->]; reflexivity|intro E; injection E as -> -> ->; auto].
Qed.
Lemma in_add_triple s p o m t : In t (m_graph (add_triple s p o m)) <-> t = (s, p, o) \/ In t (m_graph m).
Proof.
  unfold add_triple. cbn. destruct (existsb (same_triple (s, p, o)) (m_graph m)) eqn:E.
  - split; [auto|]. intros [->|H]; [|exact H]. apply existsb_exists in E. destruct E as (u & I & H). apply same_triple_eq in H. subst u. exact I.
  - rewrite in_app_iff. cbn. split; [intros [H|[H|[]]]; auto|intros [H|H]; auto].
Qed.
Lemma add_triple_counter s p o m : m_counter (add_triple s p o m) = m_counter m.
Proof. reflexivity. Qed.
Lemma add_triple_NoDup s p o m : NoDup (m_graph m) -> NoDup (m_graph (add_triple s p o m)).
Proof.
  intro N. unfold add_triple. cbn. destruct (existsb (same_triple (s, p, o)) (m_graph m)) eqn:E; [exact N|].
  assert (X : ~ In (s, p, o) (m_graph m)).
  { intro I. assert (existsb (same_triple (s, p, o)) (m_graph m) = true) by (apply existsb_exists; exists (s, p, o); split; [exact I|apply same_triple_eq; reflexivity]). congruence. }
  revert N X. generalize (m_graph m) as g. clear. induction g as [|t g IH]; intros N X; cbn; [constructor; [intros []|constructor]|].
  inversion N; subst. constructor; [rewrite in_app_iff; cbn; intros [I|[I|[]]]; [contradiction|subst; apply X; left; reflexivity]|].
  apply IH; [assumption|]. intro I. apply X. right. exact I.
Qed.

Section Mat.
  Variable bnode : nat -> nat.
  Variable can_be_subject : nat -> bool.
  Variable key values : nat -> option nat.
  Variable sch : aschema.

  Notation apply_map := (apply_map key values).
  Notation gen_se := (gen_se bnode key values sch).
  Notation gen_te := (gen_te bnode key values sch).
  Notation offered := (offered key values).
  Notation silent := (silent key values).

  Lemma offered_nil v : ~ offered [] v.
  Proof. intros (a & x & [] & _). Qed.
  Lemma offered_cons a r v : offered (a :: r) v <-> (exists x, key a = Some x /\ values x = Some v) \/ offered r v.
  Proof.
    split.
    - intros (b & x & [<-|I] & K & V); [left; eauto|right; exists b, x; auto].
    - intros [(x & K & V)|(b & x & I & K & V)]; [exists a, x; split; [left; reflexivity|auto]|exists b, x; split; [right; exact I|auto]].
  Qed.
  Lemma apply_map_in acts n p : forall m t, In t (m_graph (apply_map acts n p m)) <-> In t (m_graph m) \/ exists v, t = (n, p, v) /\ offered acts v.
  Proof.
    induction acts as [|a r IH]; intros m t.
    - cbn. split; [auto|]. intros [H|(v & _ & H)]; [exact H|destruct (offered_nil v H)].
    - cbn. rewrite IH. split.
      + intros [H|(v & -> & O)]; [|right; exists v; split; [reflexivity|apply offered_cons; auto]].
        destruct (key a) as [x|] eqn:K; [|auto]. destruct (values x) as [v|] eqn:V; [|auto].
        apply in_add_triple in H. destruct H as [->|H]; [|auto]. right. exists v. split; [reflexivity|]. apply offered_cons. left. eauto.
      + intros [H|(v & -> & O)].
        * left. destruct (key a) as [x|]; [|exact H]. destruct (values x); [|exact H]. apply in_add_triple. auto.
        * apply offered_cons in O. destruct O as [(x & K & V)|O]; [|right; eauto]. left. rewrite K, V. apply in_add_triple. auto.
  Qed.
  Lemma apply_map_counter acts n p : forall m, m_counter (apply_map acts n p m) = m_counter m.
  Proof. induction acts as [|a r IH]; intro m; cbn; [reflexivity|]. rewrite IH. destruct (key a) as [x|]; [destruct (values x)|]; reflexivity. Qed.
  Lemma apply_map_silent acts n p : (forall v, ~ offered acts v) -> forall m, apply_map acts n p m = m.
  Proof.
    induction acts as [|a r IH]; intros N m; cbn; [reflexivity|].
    assert (X : match key a with Some x => match values x with Some v => add_triple n p v m | None => m end | None => m end = m).
    { destruct (key a) as [x|] eqn:K; [|reflexivity]. destruct (values x) as [v|] eqn:V; [|reflexivity].
      destruct (N v). apply offered_cons. left. eauto. }
    rewrite X. apply IH. intros v O. apply (N v). apply offered_cons. auto.
  Qed.
  Lemma apply_map_NoDup acts n p : forall m, NoDup (m_graph m) -> NoDup (m_graph (apply_map acts n p m)).
  Proof.
    induction acts as [|a r IH]; intros m N; cbn; [exact N|]. apply IH.
    destruct (key a) as [x|]; [|exact N]. destruct (values x); [|exact N]. apply add_triple_NoDup, N.
  Qed.

  (** ** the graph stays without repetitions *)
  Lemma loop_keeps {A} (P : mat -> Prop) (h : A -> mat -> res mat) :
    (forall a m m', h a m = Ok m' -> P m -> P m') -> forall l m m', loop h l m = Ok m' -> P m -> P m'.
  Proof.
    intros H l. induction l as [|a r IH]; intros m m' E Pm; cbn in E; [injection E as <-; exact Pm|].
    destruct (h a m) as [m1| |] eqn:E1; cbn in E; try discriminate. exact (IH m1 m' E (H a m m1 E1 Pm)).
  Qed.
  Lemma gen_NoDup f : (forall e n m m', gen_se f e n m = Ok m' -> NoDup (m_graph m) -> NoDup (m_graph m')) /\
                      (forall e n m m', gen_te f e n m = Ok m' -> NoDup (m_graph m) -> NoDup (m_graph m')).
  Proof.
    induction f as [|f [IHs IHt]]; [split; cbn; discriminate|]. split.
    - intros [l|l|e|ps|closed extra [te|] extends| |r] n m m' E N; cbn in E; try (injection E as <-; exact N).
      + exact (IHt te n m m' E N).
      + destruct (find_label sch r) as [e'| |]; cbn in E; try discriminate. exact (IHs e' n m m' E N).
    - intros [id l mn mx acts|id l mn mx acts|id inv p value mn mx acts|r] n m m' E N; cbn in E.
      + revert E N. apply (loop_keeps (fun m => NoDup (m_graph m))). intros e m1 m2. apply IHt.
      + revert E N. apply (loop_keeps (fun m => NoDup (m_graph m))). intros e m1 m2. apply IHt.
      + destruct value as [[l|l|e|ps|closed extra te extends| |r]|]; try (injection E as <-; apply apply_map_NoDup, N).
        * refine (IHs _ _ _ _ E _). apply add_triple_NoDup, N.
        * destruct (find_label sch r) as [e'| |]; cbn in E; try discriminate. refine (IHs _ _ _ _ E _). apply add_triple_NoDup, N.
      + injection E as <-. exact N.
  Qed.

  (** ** what the map does not speak of is not written *)
  Lemma gen_silent f : forall e n m m', gen_te f e n m = Ok m' -> silent e -> m' = m.
  Proof.
    induction f as [|f IH]; [discriminate|].
    assert (X : forall n l m m', loop (fun e m => gen_te f e n m) l m = Ok m' ->
                  (fix all l := match l with [] => True | e :: r => silent e /\ all r end) l -> m' = m).
    { intros n l. induction l as [|e r IHl]; intros m m' E S; cbn in E; [congruence|].
      destruct (gen_te f e n m) as [m1| |] eqn:E1; cbn in E; try discriminate. destruct S as [S1 S].
      rewrite (IHl _ _ E S). exact (IH _ _ _ _ E1 S1). }
    intros [id l mn mx acts|id l mn mx acts|id inv p value mn mx acts|r] n m m' E S; cbn in E, S.
    - exact (X n l m m' E S).
    - exact (X n l m m' E S).
    - destruct S as [LF S]. destruct value as [[l|l|e|ps|closed extra te extends| |r]|]; try (destruct LF; fail); injection E as <-; apply apply_map_silent, S.
    - destruct S.
  Qed.
  Lemma loop_silent f n l : forall m m', loop (fun e m => gen_te f e n m) l m = Ok m' ->
    (fix all l := match l with [] => True | e :: r => silent e /\ all r end) l -> m' = m.
  Proof.
    induction l as [|e r IHl]; intros m m' E S; cbn in E; [congruence|].
    destruct (gen_te f e n m) as [m1| |] eqn:E1; cbn in E; try discriminate. destruct S as [S1 S].
    rewrite (IHl _ _ E S). exact (gen_silent _ _ _ _ _ E1 S1).
  Qed.

  (** ** enough fuel *)
  Lemma loop_ok {A} (h h' : A -> mat -> res mat) : (forall a m m', h a m = Ok m' -> h' a m = Ok m') ->
    forall l m m', loop h l m = Ok m' -> loop h' l m = Ok m'.
  Proof.
    intros H l. induction l as [|a r IH]; intros m m' E; cbn in *; [exact E|].
    destruct (h a m) as [m1| |] eqn:E1; cbn in E; try discriminate. rewrite (H _ _ _ E1). cbn. exact (IH _ _ E).
  Qed.
  Lemma gen_more f : (forall e n m m', gen_se f e n m = Ok m' -> gen_se (S f) e n m = Ok m') /\
                     (forall e n m m', gen_te f e n m = Ok m' -> gen_te (S f) e n m = Ok m').
  Proof.
    induction f as [|f [IHs IHt]]; [split; cbn; discriminate|]. split.
    - intros e n m m' E. destruct e as [l|l|e|ps|closed extra [te|] extends| |r]; try exact E.
      + exact (IHt te n m m' E).
      + change (bind (find_label sch r) (fun e' => gen_se f e' n m) = Ok m') in E.
        change (bind (find_label sch r) (fun e' => gen_se (S f) e' n m) = Ok m').
        destruct (find_label sch r) as [e'| |]; try discriminate. exact (IHs e' n m m' E).
    - intros e n m m' E. destruct e as [id l mn mx acts|id l mn mx acts|id inv p value mn mx acts|r]; try exact E.
      + exact (loop_ok _ _ (fun a => IHt a n) l m m' E).
      + exact (loop_ok _ _ (fun a => IHt a n) l m m' E).
      + destruct value as [[l|l|e|ps|closed extra te extends| |r]|]; try exact E.
        * exact (IHs _ _ _ _ E).
        * change (bind (find_label sch r) (fun e' => gen_se f e' (bnode (S (m_counter m))) (add_triple n p (bnode (S (m_counter m))) (mkMat (S (m_counter m)) (m_graph m)))) = Ok m') in E.
          change (bind (find_label sch r) (fun e' => gen_se (S f) e' (bnode (S (m_counter m))) (add_triple n p (bnode (S (m_counter m))) (mkMat (S (m_counter m)) (m_graph m)))) = Ok m').
          destruct (find_label sch r) as [e'| |]; try discriminate. exact (IHs _ _ _ _ E).
  Qed.
  Lemma gen_se_mono f f' e n m m' : f <= f' -> gen_se f e n m = Ok m' -> gen_se f' e n m = Ok m'.
  Proof. intros L E. induction L as [|k L IH]; [exact E|]. exact (proj1 (gen_more k) e n m m' IH). Qed.
  Lemma gen_te_mono f f' e n m m' : f <= f' -> gen_te f e n m = Ok m' -> gen_te f' e n m = Ok m'.
  Proof. intros L E. induction L as [|k L IH]; [exact E|]. exact (proj2 (gen_more k) e n m m' IH). Qed.

  (** ** without recursion it ends *)
  Lemma find_label_declared l e : find_label sch l = Ok e -> exists d, In d (a_shapes sch) /\ d_id d = l /\ d_expr d = e.
  Proof.
    unfold find_label. destruct (List.find _ _) as [d|] eqn:F; [|discriminate]. intro E. injection E as <-.
    apply find_some in F. destruct F as [I F]. apply Nat.eqb_eq in F. eauto.
  Qed.
  Lemma declared_find_label d : In d (a_shapes sch) -> exists e, find_label sch (d_id d) = Ok e.
  Proof.
    intro I. unfold find_label. destruct (List.find _ _) as [d'|] eqn:F; [eauto|].
    pose proof (find_none _ _ F d I) as H. cbn in H. rewrite Nat.eqb_refl in H. discriminate.
  Qed.

  Section Ends.
    Hypothesis AD : all_declared sch.
    Variable ok : nat -> Prop.
    Hypothesis declared_ok : forall l e, ok l -> find_label sch l = Ok e -> exists f, forall n m, exists m', gen_se f e n m = Ok m'.

    Lemma loop_ends (es : list ate) :
      (forall e, In e es -> exists f, forall n m, exists m', gen_te f e n m = Ok m') ->
      exists f, forall n m, exists m', loop (fun e m => gen_te f e n m) es m = Ok m'.
    Proof.
      induction es as [|e r IH]; intro H; [exists 0; intros n m; exists m; reflexivity|].
      destruct (H e (or_introl eq_refl)) as (f1 & F1). destruct IH as (f2 & F2); [intros e' I; apply H; right; exact I|].
      exists (max f1 f2). intros n m. destruct (F1 n m) as (m1 & E1). destruct (F2 n m1) as (m2 & E2). exists m2. cbn.
      rewrite (gen_te_mono f1 (max f1 f2) _ _ _ _ (Nat.le_max_l _ _) E1). cbn. revert E2. apply loop_ok.
      intros a m3 m4. apply gen_te_mono, Nat.le_max_r.
    Qed.
    Fixpoint ends_se (e : ase) : (forall l, calls l e -> ok l /\ called sch l) -> exists f, forall n m, exists m', gen_se f e n m = Ok m'
    with ends_te (e : ate) : (forall l, calls_te l e -> ok l /\ called sch l) -> exists f, forall n m, exists m', gen_te f e n m = Ok m'.
    Proof.
      - intro H. destruct e as [l|l|e|ps|closed extra [te|] extends| |r]; try (exists 1; intros n m; exists m; reflexivity).
        + destruct (ends_te te) as (f & F); [intros l C; apply H; constructor; exact C|]. exists (S f). exact F.
        + destruct (H r (calls_ref r)) as [O C]. destruct (AD r C) as (d & I & D). destruct (declared_find_label d I) as (e & E). rewrite D in E.
          destruct (declared_ok r e O E) as (f & F). exists (S f). intros n m. cbn. rewrite E. cbn. apply F.
      - intro H. destruct e as [id l mn mx acts|id l mn mx acts|id inv p value mn mx acts|r].
        + destruct (loop_ends l) as (f & F); [|exists (S f); exact F].
          assert (X : forall e, In e l -> forall l', calls_te l' e -> ok l' /\ called sch l').
          { intros e I l' C. apply H. econstructor; eassumption. }
          clear H. induction l as [|e r IH]; [intros e []|]. intros e' [<-|I].
          * apply ends_te. apply X. left. reflexivity.
          * apply IH; [intros e0 I0; apply X; right; exact I0|exact I].
        + destruct (loop_ends l) as (f & F); [|exists (S f); exact F].
          assert (X : forall e, In e l -> forall l', calls_te l' e -> ok l' /\ called sch l').
          { intros e I l' C. apply H. eapply calls_one; eassumption. }
          clear H. induction l as [|e r IH]; [intros e []|]. intros e' [<-|I].
          * apply ends_te. apply X. left. reflexivity.
          * apply IH; [intros e0 I0; apply X; right; exact I0|exact I].
        + destruct value as [v|]; [|exists 1; intros n m; eexists; reflexivity].
          destruct (ends_se v) as (f & F); [intros l C; apply H; constructor; exact C|].
          exists (S f). intros n m. destruct v as [l|l|e|ps|closed extra te extends| |r]; try (eexists; reflexivity).
          * apply F.
          * cbn. destruct f as [|f]; [destruct (F n m) as (m' & E); discriminate|].
            destruct (F (bnode (S (m_counter m))) (add_triple n p (bnode (S (m_counter m))) (mkMat (S (m_counter m)) (m_graph m)))) as (m' & E).
            cbn in E. destruct (find_label sch r) as [e'| |]; try discriminate. cbn in *. exists m'. exact (proj1 (gen_more f) _ _ _ _ E).
        + exists 1. intros n m. exists m. reflexivity.
    Qed.
  End Ends.
  Lemma labels_end : all_declared sch -> without_recursion sch ->
    forall l e, find_label sch l = Ok e -> exists f, forall n m, exists m', gen_se f e n m = Ok m'.
  Proof.
    intros AD (rank & R). enough (X : forall k l e, rank l < k -> find_label sch l = Ok e -> exists f, forall n m, exists m', gen_se f e n m = Ok m').
    { intros l e. apply (X (S (rank l))). lia. }
    induction k as [|k IH]; intros l e Lk E; [lia|]. destruct (find_label_declared l e E) as (d & I & D & <-).
    apply (ends_se AD (fun l => rank l < k) (fun l e => IH l e)). intros l' C. split; [|left; exists d; auto].
    pose proof (R d l' I C) as RR. rewrite D in RR. lia.
  Qed.
  Lemma start_ends e : all_declared sch -> without_recursion sch -> find_start sch = Ok e -> exists f, forall n m, exists m', gen_se f e n m = Ok m'.
  Proof.
    intros AD WR E. apply (ends_se AD (fun _ => True) (fun l e _ => labels_end AD WR l e)). intros l C. split; [exact Logic.I|].
    unfold find_start in E. destruct (a_start sch) as [e'|] eqn:AS; [injection E as ->; right; eauto|].
    destruct (a_shapes sch) as [|d ds] eqn:AA; [discriminate|]. injection E as <-. left. exists d. rewrite AA. split; [left; reflexivity|exact C].
  Qed.
End Mat.
