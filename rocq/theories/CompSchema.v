(** The compiler on whole schemas. *)
From Coq Require Import List Arith Bool ZArith Lia Permutation.
Import ListNotations.
From Verif Require Import RbeModel PendingModel TableModel GraphModel EngineModel EngineSpec CompModel CompSpec CompLemmas.

(** ** labels of triple expressions *)
Lemma register_found (e : ate) id m m' :
  match id with None => Ok m | Some l => match lookup l m with Some _ => Err | None => Ok ((l, e) :: m) end end = Ok m' ->
  forall r te, lookup r m' = Some te -> lookup r m = Some te \/ (id = Some r /\ te = e).
Proof.
  destruct id as [l|]; [|intro H; injection H as <-; auto]. destruct (lookup l m); [discriminate|]. intro H. injection H as <-.
  intros r te. cbn [lookup]. destruct (Nat.eqb_spec r l) as [->|N]; [|auto]. intro H. injection H as <-. auto.
Qed.
Lemma te_labels_all_found (l : list ate) :
  Forall (fun e => forall m m', te_labels e m = Ok m' -> forall r te, lookup r m' = Some te -> lookup r m = Some te \/ labelled_in r te e) l ->
  forall m m', (fix all (l : list ate) m := match l with [] => Ok m | e :: r => do m <- te_labels e m; all r m end) l m = Ok m' ->
  forall r te, lookup r m' = Some te -> lookup r m = Some te \/ exists e, In e l /\ labelled_in r te e.
Proof.
  induction 1 as [|e l He Hl IH]; intros m m' H r te L; [injection H as <-; auto|]. unbind H m1 E.
  destruct (IH m1 m' H r te L) as [X|(e' & I & X)].
  - destruct (He m m1 E r te X) as [Y|Y]; [left; exact Y|right]. exists e. split; [left; reflexivity|exact Y].
  - right. exists e'. split; [right; exact I|exact X].
Qed.
Lemma te_labels_found e : forall m m', te_labels e m = Ok m' -> forall r te, lookup r m' = Some te -> lookup r m = Some te \/ labelled_in r te e.
Proof.
  revert e. apply (proj2 (A := forall e : ase, True)). apply (ase_ate_ind (fun _ => True)); try exact (fun _ => Logic.I); try (intros; exact Logic.I).
  - intros id l mn mx acts F m m' H r te L. cbn [te_labels] in H. unbind H m1 E. pose proof (register_found _ _ _ _ E) as R.
    destruct (te_labels_all_found l F m1 m' H r te L) as [X|(e & I & X)]; [|right; exact (labelled_each r te id l e mn mx acts I X)].
    destruct (R r te X) as [Y|[-> ->]]; [left; exact Y|right]. exact (labelled_here_each r _ l mn mx acts eq_refl).
  - intros id l mn mx acts F m m' H r te L. cbn [te_labels] in H. unbind H m1 E. pose proof (register_found _ _ _ _ E) as R.
    destruct (te_labels_all_found l F m1 m' H r te L) as [X|(e & I & X)]; [|right; exact (labelled_one r te id l e mn mx acts I X)].
    destruct (R r te X) as [Y|[-> ->]]; [left; exact Y|right]. exact (labelled_here_one r _ l mn mx acts eq_refl).
  - intros id inv p o mn mx acts _ m m' H r te L. cbn [te_labels] in H. destruct (register_found _ _ _ _ H r te L) as [Y|[-> ->]]; [left; exact Y|right].
    exact (labelled_here_tc r _ inv p o mn mx acts eq_refl).
  - intros r0 m m' H r te L. injection H as <-. auto.
Qed.
Definition labelled_se (r : nat) (te : ate) (e : ase) : Prop :=
  exists closed extra te0 extends, within (AShape closed extra (Some te0) extends) e /\ labelled_in r te te0.
Lemma se_labels_all_found (l : list ase) :
  Forall (fun e => forall m m', se_labels e m = Ok m' -> forall r te, lookup r m' = Some te -> lookup r m = Some te \/ labelled_se r te e) l ->
  forall m m', (fix all (l : list ase) m := match l with [] => Ok m | e :: r => do m <- se_labels e m; all r m end) l m = Ok m' ->
  forall r te, lookup r m' = Some te -> lookup r m = Some te \/ exists e, In e l /\ labelled_se r te e.
Proof.
  induction 1 as [|e l He Hl IH]; intros m m' H r te L; [injection H as <-; auto|]. unbind H m1 E.
  destruct (IH m1 m' H r te L) as [X|(e' & I & X)].
  - destruct (He m m1 E r te X) as [Y|Y]; [left; exact Y|right]. exists e. split; [left; reflexivity|exact Y].
  - right. exists e'. split; [right; exact I|exact X].
Qed.
Lemma se_labels_found e : forall m m', se_labels e m = Ok m' -> forall r te, lookup r m' = Some te -> lookup r m = Some te \/ labelled_se r te e.
Proof.
  revert e. apply (proj1 (B := forall e : ate, True)). apply (ase_ate_ind _ (fun _ => True)); try exact (fun _ => Logic.I); try (intros; exact Logic.I).
  - intros l F m m' H r te L. cbn [se_labels] in H. destruct (se_labels_all_found l F m m' H r te L) as [X|(e & I & c & x & t0 & ex & W & Y)]; [auto|right].
    exists c, x, t0, ex. split; [exact (within_or l _ e I W)|exact Y].
  - intros l F m m' H r te L. cbn [se_labels] in H. destruct (se_labels_all_found l F m m' H r te L) as [X|(e & I & c & x & t0 & ex & W & Y)]; [auto|right].
    exists c, x, t0, ex. split; [exact (within_and l _ e I W)|exact Y].
  - intros e He m m' H r te L. cbn [se_labels] in H. destruct (He m m' H r te L) as [X|(c & x & t0 & ex & W & Y)]; [auto|right].
    exists c, x, t0, ex. split; [exact (within_not _ e W)|exact Y].
  - intros ps m m' H r te L. injection H as <-. auto.
  - intros c x o ex _ m m' H r te L. cbn [se_labels] in H. destruct o as [te0|]; [|injection H as <-; auto].
    destruct (te_labels_found te0 m m' H r te L) as [X|X]; [auto|right]. exists c, x, te0, ex. split; [constructor|exact X].
  - intros m m' H r te L. injection H as <-. auto.
  - intros r0 m m' H r te L. injection H as <-. auto.
Qed.

(** a loop that stops at the first error *)
Lemma fold_bind_stop {A S} (h : A -> S -> res S) l (x : res S) : (forall s, x <> Ok s) ->
  forall s, fold_left (fun s a => do s <- s; h a s) l x <> Ok s.
Proof.
  revert x. induction l as [|a l IH]; intros x H s; cbn [fold_left]; [apply H|]. apply IH. intros s'. destruct x as [y| |]; cbn [bind]; try discriminate.
  exfalso. exact (H y eq_refl).
Qed.
Lemma fold_bind_cons {A S} (h : A -> S -> res S) a l s s' : fold_left (fun s a => do s <- s; h a s) (a :: l) (Ok s) = Ok s' ->
  exists s1, h a s = Ok s1 /\ fold_left (fun s a => do s <- s; h a s) l (Ok s1) = Ok s'.
Proof.
  cbn [fold_left bind]. destruct (h a s) as [s1| |] eqn:E; intro H; [exists s1; auto|exfalso|exfalso];
    refine (fold_bind_stop h l _ _ s' H); intros; discriminate.
Qed.

Lemma schema_labels_found a m m' : schema_labels a m = Ok m' -> forall r te, lookup r m' = Some te ->
  lookup r m = Some te \/ exists e, (a_start a = Some e \/ exists d, In d (a_shapes a) /\ d_expr d = e) /\ labelled_se r te e.
Proof.
  unfold schema_labels. intro H. unbind H m1 E.
  assert (X : forall ds m1, fold_left (fun m d => do m <- m; se_labels (d_expr d) m) ds (Ok m1) = Ok m' -> forall r te, lookup r m' = Some te ->
    lookup r m1 = Some te \/ exists d, In d ds /\ labelled_se r te (d_expr d)).
  { clear. induction ds as [|d ds IH]; intros m1 H r te L; [injection H as <-; auto|].
    apply (fold_bind_cons (fun d m => se_labels (d_expr d) m)) in H. destruct H as (m2 & H1 & H2).
    destruct (IH m2 H2 r te L) as [Y|(d' & I & Y)]; [|right; exists d'; split; [right; exact I|exact Y]].
    destruct (se_labels_found _ _ _ H1 r te Y) as [Z|Z]; [auto|right; exists d; split; [left; reflexivity|exact Z]]. }
  intros r te L. destruct (X _ m1 H r te L) as [Y|(d & I & Y)].
  - destruct (a_start a) as [e|] eqn:Es; [|injection E as <-; auto]. destruct (se_labels_found _ _ _ E r te Y) as [Z|Z]; [auto|right].
    exists e. split; [left; reflexivity|exact Z].
  - right. exists (d_expr d). split; [right; exists d; auto|exact Y].
Qed.
Lemma labels_found l : forall m m', fold_left (fun m a => do m <- m; schema_labels a m) l (Ok m) = Ok m' -> forall r te, lookup r m' = Some te ->
  lookup r m = Some te \/ exists a e, In a l /\ (a_start a = Some e \/ exists d, In d (a_shapes a) /\ d_expr d = e) /\ labelled_se r te e.
Proof.
  induction l as [|a l IH]; intros m m' H r te L; [injection H as <-; auto|]. apply (fold_bind_cons schema_labels) in H.
  destruct H as (m1 & H1 & H2). destruct (IH m1 m' H2 r te L) as [X|(a' & e & I & X)]; [|right; exists a', e; split; [right; exact I|exact X]].
  destruct (schema_labels_found a m m1 H1 r te X) as [Y|(e & Y)]; [auto|right; exists a, e; split; [left; reflexivity|exact Y]].
Qed.
Lemma labels_sound imported root lab : fold_left (fun m a => do m <- m; schema_labels a m) (imported ++ [root]) (Ok []) = Ok lab ->
  forall r te, lookup r lab = Some te -> labelled imported root r te.
Proof.
  intros H r te L. destruct (labels_found _ _ _ H r te L) as [X|(a & e & I & S & c & x & t0 & ex & W & Y)]; [discriminate|].
  exists a, e, c, x, t0, ex. auto.
Qed.

(** ** inclusions *)
Section UnfoldInd.
  Variables L L' : nat -> ate -> Prop.
  Hypothesis sub : forall r e, L r e -> L' r e.
  Scheme unfold_te_i := Minimality for unfold_te Sort Prop
    with unfold_tes_i := Minimality for unfold_tes Sort Prop
    with unfold_se_i := Minimality for unfold_se Sort Prop
    with unfold_ses_i := Minimality for unfold_ses Sort Prop.
  Lemma unfold_se_mono e e' : unfold_se L e e' -> unfold_se L' e e'.
  Proof.
    apply (unfold_se_i L (unfold_te L') (unfold_tes L') (unfold_se L') (unfold_ses L')); intros; try (constructor; assumption).
    econstructor; [apply sub; eassumption|assumption].
  Qed.
  Hypothesis one : forall r e e', L r e -> L r e' -> e = e'.
  Lemma unfold_se_fun e e' : unfold_se L e e' -> forall e'', unfold_se L e e'' -> e' = e''.
  Proof.
    apply (unfold_se_i L (fun e e' => forall e'', unfold_te L e e'' -> e' = e'') (fun e e' => forall e'', unfold_tes L e e'' -> e' = e'')
                        (fun e e' => forall e'', unfold_se L e e'' -> e' = e'') (fun e e' => forall e'', unfold_ses L e e'' -> e' = e''));
      intros; match goal with H : _ ?x |- ?y = ?x => inversion H; subst | H : _ _ _ ?x |- ?y = ?x => inversion H; subst end;
      try reflexivity; try (f_equal; eauto; fail).
    - f_equal. f_equal. eauto.
    - match goal with H1 : L ?r ?a, H2 : L ?r ?b |- _ => pose proof (one _ _ _ H1 H2); subst end. eauto.
    - f_equal. f_equal. eauto.
  Qed.
End UnfoldInd.

(** ** labels of shapes *)
Lemma shape_labels_shapes l s : fold_left (fun s a => shape_labels a s) l s =
  fold_left (fun s d => let (i, s) := add_shape (d_id d) EEmpty s in if d_abstract d then add_abstract i s else s) (flat_map a_shapes l) s.
Proof. revert s. induction l as [|a l IH]; intro s; [reflexivity|]. cbn [fold_left flat_map]. rewrite fold_left_app, IH. reflexivity. Qed.

(** the labels have been given the indices in order; a label that comes again gets another one *)
Definition numbered (ids : list nat) (s : ir) : Prop :=
  size s = length ids /\ (forall l i, lookup l (ir_labels s) = Some i -> nth_error ids i = Some l) /\
  (forall l, In l ids -> exists i, lookup l (ir_labels s) = Some i) /\
  (forall j, j < length ids -> nth_error (ir_store s) j = Some EEmpty).
Lemma numbered_add ids s l : numbered ids s -> numbered (ids ++ [l]) (snd (add_shape l EEmpty s)).
Proof.
  intros (A & B & C & E). unfold size in A. unfold add_shape. split; [|split; [|split]]; cbn [snd ir_labels ir_store lookup].
  - unfold size. cbn [ir_store]. rewrite !app_length. cbn. lia.
  - intros l' i. rewrite A. destruct (Nat.eqb_spec l' l) as [->|N].
    + intro H. injection H as <-. rewrite nth_error_app2, Nat.sub_diag by lia. reflexivity.
    + intro H. apply B in H. rewrite nth_error_app1; [exact H|]. apply nth_error_Some. congruence.
  - intros l' I. destruct (Nat.eqb_spec l' l) as [->|N]; [eauto|]. apply in_app_iff in I. destruct I as [I|[I|[]]]; [exact (C l' I)|congruence].
  - intros j J. rewrite app_length in J. cbn in J. destruct (Nat.lt_ge_cases j (length ids)) as [X|X].
    + rewrite nth_error_app1 by lia. exact (E j X).
    + rewrite nth_error_app2 by lia. replace (j - length (ir_store s)) with 0 by lia. reflexivity.
Qed.
Definition abstracts (ds : list decl) (s : ir) : Prop :=
  forall i, In i (ir_abstract s) <-> exists d, nth_error ds i = Some d /\ d_abstract d = true.
Lemma labels_numbered ds : forall ds0 s, numbered (map d_id ds0) s -> abstracts ds0 s ->
  let s' := fold_left (fun s d => let (i, s) := add_shape (d_id d) EEmpty s in if d_abstract d then add_abstract i s else s) ds s in
  numbered (map d_id (ds0 ++ ds)) s' /\ abstracts (ds0 ++ ds) s'.
Proof.
  induction ds as [|d ds IH]; intros ds0 s N A; [rewrite app_nil_r; split; assumption|]. cbn [fold_left].
  replace (ds0 ++ d :: ds) with ((ds0 ++ [d]) ++ ds) by (rewrite <- app_assoc; reflexivity). apply IH.
  - pose proof (numbered_add _ s (d_id d) N) as X. rewrite map_app. cbn [map]. unfold add_shape in *. cbn [snd] in X.
    destruct (d_abstract d); exact X.
  - intro i. specialize (A i). destruct N as [Z _]. unfold size in Z. rewrite map_length in Z.
    assert (Y : (exists d0, nth_error (ds0 ++ [d]) i = Some d0 /\ d_abstract d0 = true) <->
                (exists d0, nth_error ds0 i = Some d0 /\ d_abstract d0 = true) \/ (i = length ds0 /\ d_abstract d = true)).
    { split.
      - intros (d0 & H & B). destruct (Nat.lt_ge_cases i (length ds0)) as [X|X]; [rewrite nth_error_app1 in H by exact X; left; eauto|].
        rewrite nth_error_app2 in H by exact X. destruct (i - length ds0) as [|[|k]] eqn:Q; cbn in H; try discriminate. injection H as <-. right. split; [lia|exact B].
      - intros [(d0 & H & B)|[-> B]]; [exists d0|exists d]; (split; [|exact B]).
        + rewrite nth_error_app1; [exact H|]. apply nth_error_Some. congruence.
        + rewrite nth_error_app2, Nat.sub_diag by lia. reflexivity. }
    rewrite Y. unfold add_shape. destruct (d_abstract d); cbn [add_abstract ir_abstract].
    + cbn [In]. rewrite A. rewrite Z. intuition.
    + rewrite A. intuition. discriminate.
Qed.

(** ** shape expressions *)
Definition step (known : nat -> bool) (lab : list (nat * ate)) (fuel : nat) (d : decl) (s : ir) : res ir :=
  do i <- get_idx (d_id d) s; do (e, s) <- compile_se known lab fuel (d_expr d) i s; Ok (replace_shape i e s).
Lemma steps_shapes known lab fuel l : forall s s',
  fold_left (fun s a => do s <- s; shape_exprs known lab fuel a s) l (Ok s) = Ok s' ->
  fold_left (fun s d => do s <- s; step known lab fuel d s) (flat_map a_shapes l) (Ok s) = Ok s'.
Proof.
  induction l as [|a l IH]; intros s s' H; [exact H|]. apply (fold_bind_cons (shape_exprs known lab fuel)) in H. destruct H as (s1 & H1 & H2).
  cbn [flat_map]. rewrite fold_left_app. unfold shape_exprs in H1. change (fold_left (fun s d => do s <- s; step known lab fuel d s) (a_shapes a) (Ok s) = Ok s1) in H1.
  rewrite H1. exact (IH s1 s' H2).
Qed.

Section Steps.
  Variable known : nat -> bool.
  Variable lab : list (nat * ate).
  Variable M : nat -> option nat.
  Variable L0 : nat.
  Variable fuel : nat.
  Let L := fun r e => lookup r lab = Some e.
  Hypothesis Mlow : forall l i, M l = Some i -> i < L0.
  Hypothesis Minj : forall l l' i, M l = Some i -> M l' = Some i -> l = l'.

  Definition own (ds : list decl) (j : nat) : Prop := exists d, In d ds /\ M (d_id d) = Some j.

  Lemma step_spec d s s' : step known lab fuel d s = Ok s' -> named M s -> L0 <= size s ->
    exists i e, M (d_id d) = Some i /\ frame (eq i) s s' /\ unfold_se L (d_expr d) e /\
      forall St, agree St s' (size s) (size s') ->
        (St i = nth_error (ir_store s') i -> codes St M L0 i e) /\ covers M L0 St s s' (fun x => within x e).
  Proof.
    unfold step. intros H N LE. unbind H i E1. unbind H x E2. destruct x as [se s1]. injection H as <-.
    apply (get_idx_named M) in E1; [|exact N]. pose proof (Mlow _ _ E1) as IL.
    destruct (proj1 (compile_spec known lab M L0 fuel) _ _ _ _ _ E2 N LE) as (F & e & U & C); [lia|].
    pose proof F as (_ & _ & Z & _).
    exists i, e. split; [exact E1|]. split; [apply (frame_trans _ _ s1); [exact F|apply frame_replace]|]. split; [exact U|].
    intros St A. rewrite size_replace in A. destruct (C St) as [C1 C2].
    - intros j J. rewrite (A j) by lia. unfold replace_shape. cbn [ir_store]. apply set_nth_other. lia.
    - split.
      + intro I. apply C1. rewrite I. apply replace_at. lia.
      + intros j J. rewrite size_replace in J. exact (C2 j J).
  Qed.

  Lemma steps_spec ds : forall s s', fold_left (fun s d => do s <- s; step known lab fuel d s) ds (Ok s) = Ok s' ->
    named M s -> L0 <= size s -> (forall d d', In d ds -> In d' ds -> d_id d = d_id d' -> d = d') ->
    frame (own ds) s s' /\
    forall St, agree St s' (size s) (size s') -> (forall j, own ds j -> St j = nth_error (ir_store s') j) ->
      (forall d, In d ds -> exists i e, M (d_id d) = Some i /\ unfold_se L (d_expr d) e /\ codes St M L0 i e) /\
      covers M L0 St s s' (fun x => exists d e, In d ds /\ unfold_se L (d_expr d) e /\ within x e).
  Proof.
    induction ds as [|d ds IH]; intros s s' H N LE ND.
    - injection H as <-. split; [apply frame_refl|]. intros St A O. split; [intros d []|apply covers_none].
    - apply (fold_bind_cons (step known lab fuel)) in H. destruct H as (s1 & H1 & H2).
      destruct (step_spec d s s1 H1 N LE) as (i & e & Mi & F & U & C). pose proof F as (_ & _ & Z & _).
      destruct (IH s1 s' H2 (named_frame M _ _ _ F N)) as (F2 & C2); [lia|intros d1 d2 I1 I2; apply ND; right; assumption|].
      pose proof F2 as (_ & _ & Z2 & K2). pose proof (Mlow _ _ Mi) as IL.
      assert (OD : own ds i \/ ~ own ds i).
      { destruct (in_dec Nat.eq_dec (d_id d) (map d_id ds)) as [I|I].
        - left. apply in_map_iff in I. destruct I as (d' & E & I). exists d'. split; [exact I|]. rewrite E. exact Mi.
        - right. intros (d' & I' & M'). apply I. rewrite (Minj _ _ _ Mi M'). apply in_map. exact I'. }
      split.
      + apply (frame_trans _ _ s1).
        * apply (frame_weaken _ _ _ _ F). intros j _ <-. exists d. split; [left; reflexivity|exact Mi].
        * apply (frame_weaken _ _ _ _ F2). intros j _ (d' & I & X). exists d'. split; [right; exact I|exact X].
      + intros St A O. destruct (C2 St) as [D3 D4].
        * intros j J. apply A. lia.
        * intros j (d' & I & X). apply O. exists d'. split; [right; exact I|exact X].
        * assert (AG : agree St s1 (size s) (size s1)).
          { apply (agree_back (own ds) St s1 s' (size s) (size s')); auto; try lia. intros j J (d' & _ & X). apply Mlow in X. lia. }
          assert (Y : (exists i0 e0, M (d_id d) = Some i0 /\ unfold_se L (d_expr d) e0 /\ codes St M L0 i0 e0) /\
                      covers M L0 St s s1 (fun x => within x e)).
          { destruct (C St AG) as [D1 D2]. split; [|exact D2]. destruct OD as [(d' & I & M')|NO].
            - pose proof (Minj _ _ _ Mi M') as E. apply ND in E; [|left; reflexivity|right; exact I]. subst d'. exact (D3 d I).
            - exists i, e. split; [exact Mi|]. split; [exact U|]. apply D1.
              rewrite (O i) by (exists d; split; [left; reflexivity|exact Mi]). apply K2; [lia|exact NO]. }
          split.
          -- intros d' [<-|I]; [exact (proj1 Y)|exact (D3 d' I)].
          -- apply (covers_trans M L0 St s s1 s').
             ++ apply (covers_weaken M L0 _ _ _ _ _ (proj2 Y)). intros x W. exists d, e. split; [left; reflexivity|auto].
             ++ apply (covers_weaken M L0 _ _ _ _ _ D4). intros x (d' & e' & I & W). exists d', e'. split; [right; exact I|exact W].
  Qed.
End Steps.

(** ** the whole *)
Definition label_index (s : ir) (l : nat) : option nat := lookup l (ir_labels s).
Definition entry (s : ir) (i : nat) : option sexpr := nth_error (ir_store s) i.

Lemma shapes_app imported root : flat_map a_shapes (imported ++ [root]) = flat_map a_shapes imported ++ a_shapes root.
Proof. rewrite flat_map_app. cbn [flat_map]. rewrite app_nil_r. reflexivity. Qed.
Lemma declarations_ids imported root : declarations imported root =
  map d_id (flat_map a_shapes (imported ++ [root])) ++ match a_start root with Some _ => [start] | None => [] end.
Proof. unfold declarations. f_equal. induction (imported ++ [root]) as [|a l IH]; [reflexivity|]. cbn [flat_map]. rewrite map_app, IH. reflexivity. Qed.

Theorem compile_ir_spec known fuel imported root s : compile_ir known fuel imported root = Ok s -> consistent imported root ->
  let M := label_index s in let L0 := length (declarations imported root) in
  (forall l i, M l = Some i -> nth_error (declarations imported root) i = Some l) /\
  (forall l, In l (declarations imported root) -> exists i, M l = Some i) /\
  L0 <= size s /\
  (forall l e0, declared imported root l e0 -> exists i e, M l = Some i /\ unfold_se (labelled imported root) e0 e /\ codes (entry s) M L0 i e) /\
  (forall j, L0 <= j < size s -> exists l e x, defines imported root l e /\ within x e /\ codes (entry s) M L0 j x) /\
  (forall i, In i (ir_abstract s) <-> exists d, nth_error (flat_map a_shapes (imported ++ [root])) i = Some d /\ d_abstract d = true) /\
  (forall j, j < L0 -> (exists l, M l = Some j) \/ entry s j = Some EEmpty).
Proof.
  intros H CO. unfold compile_ir in H. set (ds := flat_map a_shapes (imported ++ [root])) in *.
  set (s0 := shape_labels root (fold_left (fun s a => shape_labels a s) imported ir_new)) in H.
  assert (N0 : numbered (map d_id ds) s0 /\ abstracts ds s0).
  { assert (X : s0 = fold_left (fun s a => shape_labels a s) (imported ++ [root]) ir_new) by (rewrite fold_left_app; reflexivity).
    rewrite X, shape_labels_shapes. apply (labels_numbered _ [] ir_new).
    - split; [reflexivity|]. split; [intros l i E; discriminate|]. split; [intros l []|]. intros j J. cbn in J. lia.
    - intro i. split; [intros []|intros (d & E & _); destruct i; discriminate]. }
  destruct N0 as [N0 A0]. rewrite declarations_ids in *. fold ds in H |- *.
  unbind H s2 E. unbind H lab EL. apply steps_shapes in H. fold ds in H.
  assert (CD : forall d d', In d ds -> In d' ds -> d_id d = d_id d' -> d = d').
  { intros d d' I I'. apply in_flat_map in I, I'. destruct I as (a & Ia & Id). destruct I' as (a' & Ia' & Id'). exact (proj1 (CO a a' d d' Ia Ia' Id Id')). }
  assert (CS : a_start root <> None -> forall d, In d ds -> d_id d <> start).
  { intros S d I. apply in_flat_map in I. destruct I as (a & Ia & Id). exact (proj2 (CO a a d d Ia Ia Id Id) S). }
  set (ids := map d_id ds ++ match a_start root with Some _ => [start] | None => [] end) in *.
  (* the state in which all labels have indices *)
  assert (X : exists s1, numbered ids s1 /\ abstracts ds s1 /\
    match a_start root with
    | None => s2 = s1
    | Some e => step known [] fuel (mkDecl start e false) s1 = Ok s2
    end).
  { unfold ids. destruct (a_start root) as [e|].
    - exists (snd (add_shape start EEmpty s0)). split; [apply numbered_add; exact N0|]. split; [exact A0|].
      unfold step. cbn [d_id d_expr]. unfold add_shape in *. cbn [snd] in *. unfold get_idx. cbn [ir_labels lookup]. exact E.
    - injection E as <-. exists s0. rewrite app_nil_r. auto. }
  destruct X as (s1 & (Z1 & M1 & MA & ME) & A1 & E1). clear E A0 N0 s0.
  set (M := fun l => lookup l (ir_labels s1)). set (L0 := length ids) in *.
  assert (Mlow : forall l i, M l = Some i -> i < L0) by (intros l i Mi; apply M1 in Mi; apply nth_error_Some; congruence).
  assert (Minj : forall l l' i, M l = Some i -> M l' = Some i -> l = l') by (intros l l' i A B; apply M1 in A, B; congruence).
  assert (NM : named M s1) by (intro; reflexivity).
  (* the start expression *)
  assert (Y : frame (fun j => M start = Some j /\ a_start root <> None) s1 s2 /\
    forall St, agree St s2 (size s1) (size s2) -> (forall j, M start = Some j -> a_start root <> None -> St j = nth_error (ir_store s2) j) ->
      (forall e0, a_start root = Some e0 -> exists i e, M start = Some i /\ unfold_se (labelled imported root) e0 e /\ codes St M L0 i e) /\
      covers M L0 St s1 s2 (fun x => exists e, defines imported root start e /\ within x e)).
  { destruct (a_start root) as [e0|] eqn:ES.
    - destruct (step_spec known [] M L0 fuel Mlow _ _ _ E1 NM) as (i & e & Mi & F & U & C); [lia|]. cbn [d_id d_expr] in *.
      assert (U' : unfold_se (labelled imported root) e0 e) by (refine (unfold_se_mono _ _ _ _ _ U); intros; discriminate).
      split; [apply (frame_weaken _ _ _ _ F); intros j _ <-; split; [exact Mi|discriminate]|]. intros St A O.
      destruct (C St A) as [D1 D2]. split.
      + intros e1 X. injection X as <-. exists i, e. split; [exact Mi|]. split; [exact U'|]. apply D1. apply O; [exact Mi|discriminate].
      + apply (covers_weaken M L0 _ _ _ _ _ D2). intros x W. exists e. split; [|exact W]. exists e0. split; [right; auto|exact U'].
    - subst s2. split; [apply frame_refl|]. intros St A O. split; [intros e0 X; discriminate|apply covers_none]. }
  destruct Y as [F2 C2]. pose proof F2 as (LB2 & AB2 & Z2 & K2).
  destruct (steps_spec known lab M L0 fuel Mlow Minj ds s2 s H (named_frame M _ _ _ F2 NM)) as [F3 C3]; [lia|exact CD|].
  pose proof F3 as (LB3 & AB3 & Z3 & K3).
  assert (EM : forall l, label_index s l = M l) by (intro l; unfold label_index; rewrite LB3, LB2; reflexivity).
  assert (CX : forall i e, codes (entry s) M L0 i e -> codes (entry s) (label_index s) L0 i e).
  { intros i e C. replace (label_index s) with M; [exact C|]. unfold M, label_index. rewrite LB3, LB2. reflexivity. }
  destruct (C3 (entry s)) as [D1 D2]; [intros j J; reflexivity|intros; reflexivity|].
  assert (STN : forall j, M start = Some j -> a_start root <> None -> ~ own M ds j).
  { intros j Mj NS (d & I & Md). apply (CS NS d I). exact (Minj _ _ _ Md Mj). }
  destruct (C2 (entry s)) as [D3 D4].
  { apply (agree_back (own M ds) (entry s) s2 s (size s1) (size s)); auto; try lia; [intros j J; reflexivity|].
    intros j J (d & _ & X). apply Mlow in X. lia. }
  { intros j Mj NS. apply K3; [pose proof (Mlow _ _ Mj); lia|]. exact (STN j Mj NS). }
  pose proof (labels_sound _ _ _ EL) as LS.
  split; [|split; [|split; [|split; [|split; [|split]]]]].
  - intros l i. rewrite EM. apply M1.
  - intros l I. rewrite EM. exact (MA l I).
  - lia.
  - intros l e0 [(a & d & Ia & Id & <- & <-)|[-> ES]].
    + destruct (D1 d) as (i & e & Mi & U & C); [apply in_flat_map; exists a; auto|]. exists i, e. rewrite EM. split; [exact Mi|].
      split; [exact (unfold_se_mono _ _ LS _ _ U)|exact (CX _ _ C)].
    + destruct (D3 e0 ES) as (i & e & Mi & U & C). exists i, e. rewrite EM. split; [exact Mi|]. split; [exact U|exact (CX _ _ C)].
  - intros j J. destruct (Nat.lt_ge_cases j (size s2)) as [Q|Q].
    + destruct (D4 j) as (x & (e & De & W) & C); [lia|]. exists start, e, x. split; [exact De|]. split; [exact W|exact (CX _ _ C)].
    + destruct (D2 j) as (x & (d & e & I & U & W) & C); [lia|]. exists (d_id d), e, x. split; [|split; [exact W|exact (CX _ _ C)]].
      unfold ds in I. apply in_flat_map in I. destruct I as (a & Ia & Id). exists (d_expr d). split; [left; exists a, d; auto|].
      exact (unfold_se_mono _ _ LS _ _ U).
  - intro i. rewrite AB3, AB2. apply A1.
  - intros j J. destruct (nth_error ids j) as [l|] eqn:EN; [|apply nth_error_None in EN; unfold L0 in J; lia].
    assert (X : (exists l, M l = Some j) \/ ~ exists l, M l = Some j).
    { destruct (MA l (nth_error_In _ _ EN)) as (k & Mk). destruct (Nat.eq_dec k j) as [->|N]; [left; exists l; exact Mk|right].
      intros (l' & Ml). pose proof (M1 _ _ Ml) as E'. assert (l' = l) as -> by congruence. unfold M in Ml. congruence. }
    destruct X as [(l' & X)|X]; [left; exists l'; rewrite EM; exact X|right]. unfold entry.
    rewrite K3; [|lia|intros (d & _ & Y); apply X; eauto]. rewrite K2; [|lia|intros [Y _]; apply X; eauto]. exact (ME j J).
Qed.

Lemma distinct_consistent imported root : distinct imported root -> consistent imported root.
Proof.
  unfold distinct. rewrite declarations_ids. intros ND a a' d d' Ia Ia' Id Id'.
  assert (I : In d (flat_map a_shapes (imported ++ [root]))) by (apply in_flat_map; exists a; auto).
  assert (I' : In d' (flat_map a_shapes (imported ++ [root]))) by (apply in_flat_map; exists a'; auto).
  set (ds := flat_map a_shapes (imported ++ [root])) in *. split.
  - intro E. apply In_nth_error in I, I'. destruct I as (k & N). destruct I' as (k' & N').
    assert (A : nth_error (map d_id ds) k = Some (d_id d)) by (apply map_nth_error; exact N).
    assert (A' : nth_error (map d_id ds) k' = Some (d_id d')) by (apply map_nth_error; exact N').
    assert (k = k') as ->; [|congruence]. rewrite NoDup_nth_error in ND. apply ND.
    + rewrite app_length. assert (k < length (map d_id ds)) by (apply nth_error_Some; congruence). lia.
    + rewrite !nth_error_app1 by (apply nth_error_Some; congruence). congruence.
  - intros S E. destruct (a_start root); [|congruence]. apply NoDup_remove_2 in ND. rewrite app_nil_r in ND. apply ND. rewrite <- E. apply in_map. exact I.
Qed.

Lemma compiled_find s i : find (compiled s) i = entry s i.
Proof.
  unfold find, compiled, entry. cbn [shapes]. set (l := ir_store s).
  assert (X : forall k, assoc (k + i) (combine (seq k (length l)) l) = nth_error l i); [|exact (X 0)].
  revert i. induction l as [|e l IH]; intros i k; [destruct i; reflexivity|]. cbn [length seq combine assoc].
  destruct i as [|i].
  - rewrite Nat.add_0_r, Nat.eqb_refl. reflexivity.
  - replace (k + S i) with (S k + i) by lia. replace (S k + i =? k) with false by (symmetry; apply Nat.eqb_neq; lia).
    cbn [nth_error]. apply IH.
Qed.
