(** The class-based enumeration yields genuine partitions and every accepted one. *)

Require Import List Arith Bool Lia Permutation Sorted.
Import ListNotations.
From Verif Require Import RbeModel RbeSpec RbeInterval RbeFeasModel RbeFeas RbeFinal PendingModel PendingSpec PendingLemmas
  TableModel TableSpec TableLemmas StepModel StepSpec StepLemmas ClassModel ClassSpec ClassLemmas.

(** ** buckets and predicates *)

Lemma keys_ckey t : tbuilt t -> forall k, In k (map fst (t_keys t)) <-> In k (t_ckey t).
Proof.
  change (map fst (t_keys t)) with (keys (t_keys t)).
  induction 1 as [|k0 cd t B IH|r t B IH]; intro k; [tauto| |apply IH].
  simpl. change (map fst (ix_upd ?a ?b ?c)) with (keys (ix_upd a b c)). rewrite keys_upd, in_app_iff. simpl.
  change (keys (t_keys t)) with (map fst (t_keys t)) in IH. unfold keys. rewrite IH. intuition.
Qed.

Lemma keys_component t k : tbuilt t -> (In k (map fst (t_keys t)) <-> exists c cd, component t c k cd).
Proof.
  intro B. rewrite (keys_ckey t B). destruct (components_spec (fun _ _ => true) t B) as (L & _). split.
  - intro H. apply In_nth_error in H. destruct H as (c & E). exists c.
    destruct (nth_error (t_cond t) c) as [cd|] eqn:F; [exists cd; split; assumption|].
    apply nth_error_None in F. assert (nth_error (t_ckey t) c = None) by (apply nth_error_None; lia). congruence.
  - intros (c & cd & E & _). eapply nth_error_In. exact E.
Qed.

Lemma mem_nat_In x l : mem_nat x l = true <-> In x l.
Proof.
  unfold mem_nat. rewrite existsb_exists. split; [intros (y & H & E); apply Nat.eqb_eq in E; subst; exact H|].
  intro H. exists x. split; [exact H|apply Nat.eqb_refl].
Qed.

Lemma eligible_mentions buckets : (forall b t, In t (nth b buckets []) -> tbuilt t) ->
  forall k b, In b (eligible_of buckets k) <-> b < length buckets /\ mentions buckets b k.
Proof.
  intros HB k b. unfold eligible_of, mentions. rewrite filter_In, in_seq, mem_nat_In. unfold bucket_keys. rewrite in_flat_map.
  split.
  - intros [H (t & Ht & K)]. split; [lia|]. apply (keys_component t k (HB b t Ht)) in K. destruct K as (c & cd & K). eauto.
  - intros [H (t & c & cd & Ht & K)]. split; [lia|]. exists t. split; [exact Ht|]. apply (keys_component t k (HB b t Ht)). eauto.
Qed.

Lemma eligible_NoDup buckets k : NoDup (eligible_of buckets k).
Proof. apply NoDup_filter, seq_NoDup. Qed.

(** ** the classes *)

Section ClassMap.
  Variable buckets : list (list table).

  Definition sound_class (c : class) : Prop :=
    c_values c <> [] /\ c_eligible c <> [] /\ forall kv, In kv (c_values c) -> eligible_of buckets (fst kv) = c_eligible c.
  Definition has_bucket (kv : nat * nat) : bool := match eligible_of buckets (fst kv) with [] => false | _ => true end.

  Lemma class_push_spec e kv cs : e = eligible_of buckets (fst kv) -> e <> [] -> Forall sound_class cs ->
    Forall sound_class (class_push e kv cs) /\
    Permutation (concat (map c_values (class_push e kv cs))) (concat (map c_values cs) ++ [kv]).
  Proof.
    intros E NE. induction 1 as [|c cs (S1 & S2 & S3) F IH]; simpl.
    - split; [|apply Permutation_refl]. repeat constructor; simpl; [discriminate|exact NE|].
      intros kv' [<-|[]]. auto.
    - unfold nat_list_eqb. destruct (list_eq_dec Nat.eq_dec (c_eligible c) e) as [Q|Q]; simpl.
      + split.
        * constructor; [|exact F]. split; [simpl; destruct (c_values c); discriminate|]. split; [exact S2|].
          simpl. intros kv' H. apply in_app_iff in H. destruct H as [H|[<-|[]]]; [auto|congruence].
        * rewrite <- !app_assoc. apply Permutation_app_head. apply Permutation_app_comm.
      + destruct IH as [I1 I2]. split; [constructor; [split; auto|exact I1]|].
        rewrite <- app_assoc. apply Permutation_app_head. exact I2.
  Qed.

  Lemma class_map_fold neighs cs : Forall sound_class cs ->
    let cs' := fold_left (fun cs kv => let e := eligible_of buckets (fst kv) in
                            match e with [] => cs | _ => class_push e kv cs end) neighs cs in
    Forall sound_class cs' /\ Permutation (concat (map c_values cs')) (concat (map c_values cs) ++ filter has_bucket neighs).
  Proof.
    revert cs. induction neighs as [|kv neighs IH]; intros cs F; simpl.
    - rewrite app_nil_r. split; [exact F|apply Permutation_refl].
    - unfold has_bucket at 1. destruct (eligible_of buckets (fst kv)) as [|b e] eqn:E.
      + apply IH. exact F.
      + destruct (class_push_spec (b :: e) kv cs) as [I1 I2]; [auto|discriminate|exact F|].
        destruct (IH _ I1) as [J1 J2]. split; [exact J1|]. etransitivity; [exact J2|].
        etransitivity; [apply Permutation_app_tail; exact I2|]. rewrite <- app_assoc. apply Permutation_refl.
  Qed.

  Lemma classes_spec neighs classes : classes_of buckets neighs classes ->
    Forall sound_class classes /\ Permutation (concat (map c_values classes)) (filter has_bucket neighs).
  Proof.
    intro P. unfold classes_of, class_map in P. destruct (class_map_fold neighs []) as [A B]; [constructor|].
    simpl in A, B. split.
    - eapply Permutation_Forall; [exact P|exact A].
    - etransitivity; [|exact B]. symmetry. clear -P. induction P; simpl.
      + constructor.
      + apply Permutation_app_head. exact IHP.
      + rewrite !app_assoc. apply Permutation_app_tail. apply Permutation_app_comm.
      + etransitivity; eassumption.
  Qed.
End ClassMap.

(** ** partitions *)

Lemma combine_concat {A B} (vs : list (list A)) (ws : list (list B)) : Forall2 (fun v w => length v = length w) vs ws ->
  combine (concat vs) (concat ws) = concat (map (fun vw => combine (fst vw) (snd vw)) (combine vs ws)).
Proof.
  induction 1 as [|v w vs ws E F IH]; simpl; [reflexivity|]. rewrite <- IH. clear IH F.
  revert w E. induction v as [|x v IHv]; intros [|y w] E; try discriminate; simpl; [reflexivity|].
  f_equal. apply IHv. injection E as E. exact E.
Qed.

Lemma fold_concat {A B} (f : A -> B -> A) (ls : list (list B)) a : fold_left (fun a l => fold_left f l a) ls a = fold_left f (concat ls) a.
Proof. revert a. induction ls as [|l ls IH]; intro a; simpl; [reflexivity|]. rewrite IH, fold_left_app. reflexivity. Qed.

Lemma proper_lengths cl A : Forall2 proper cl A -> Forall2 (fun v w => length v = length w) (map c_values cl) A.
Proof. induction 1 as [|c a cl A [E _] F IH]; simpl; constructor; auto. Qed.

Lemma current_distribution buckets cl A : Forall2 proper cl A -> (forall c b, In c cl -> In b (c_eligible c) -> b < length buckets) ->
  current_partition buckets cl A = distribution (concat (map c_values cl)) (length buckets) (concat A).
Proof.
  intros F H. unfold current_partition.
  assert (E : forall (l : list (class * list nat)) (acc : list (list (nat * nat))),
    fold_left (fun subsets (cp : class * list nat) =>
                 fold_left (fun subsets (vb : (nat * nat) * nat) => push_at (snd vb) (fst vb) subsets)
                           (combine (c_values (fst cp)) (snd cp)) subsets) l acc =
    fold_left (fun a l => fold_left (fun subsets (vb : (nat * nat) * nat) => push_at (snd vb) (fst vb) subsets) l a)
              (map (fun vw => combine (fst vw) (snd vw)) (map (fun cp => (c_values (fst cp), snd cp)) l)) acc).
  { induction l as [|x l IH]; intro acc; simpl; [reflexivity|]. apply IH. }
  rewrite E, fold_concat.
  replace (map (fun cp => (c_values (fst cp), snd cp)) (combine cl A)) with (combine (map c_values cl) A).
  - rewrite <- combine_concat by (apply proper_lengths; exact F).
    rewrite (build_fold _ _ (concat A) (repeat [] (length buckets))).
    + rewrite repeat_length. unfold distribution. apply map_ext_in. intros j Hj. rewrite nth_repeat. reflexivity.
    + rewrite repeat_length. clear E. induction F as [|c a cl A [_ I1] F IH]; simpl; [intros j []|].
      intros j Hj. apply in_app_iff in Hj. destruct Hj as [Hj|Hj].
      * apply (H c); [left; reflexivity|apply I1; exact Hj].
      * apply IH; [|exact Hj]. intros c' b Hc. apply H. right. exact Hc.
  - clear. revert A. induction cl as [|c cl IH]; intros [|a A]; simpl; try reflexivity. f_equal. apply IH.
Qed.

Lemma received_app {T} (v1 v2 : list T) a1 a2 b : length v1 = length a1 ->
  received (v1 ++ v2) (a1 ++ a2) b = received v1 a1 b ++ received v2 a2 b.
Proof.
  revert a1. induction v1 as [|x v1 IH]; intros [|i a1] E; try discriminate; simpl; [reflexivity|].
  injection E as E. rewrite (IH a1 E). destruct (i =? b); reflexivity.
Qed.

Lemma received_sub {T} (v : list T) a b : length v = length a -> exists rest, Permutation (received v a b ++ rest) v.
Proof.
  revert a. induction v as [|x v IH]; intros [|i a] E; try discriminate; simpl; [exists []; constructor|].
  injection E as E. destruct (IH a E) as (rest & P). destruct (i =? b).
  - exists rest. simpl. apply perm_skip. exact P.
  - exists (x :: rest). etransitivity; [apply Permutation_sym, Permutation_middle|]. apply perm_skip. exact P.
Qed.

Lemma received_none {T} (v : list T) a b : count_occ Nat.eq_dec a b = 0 -> received v a b = [].
Proof.
  intro H. apply count_occ_not_In in H. revert a H. induction v as [|x v IH]; intros [|i a] H; simpl; try reflexivity.
  destruct (Nat.eqb_spec i b) as [->|N]; [destruct H; left; reflexivity|]. apply IH. intro K. apply H. right. exact K.
Qed.

Lemma position_spec b l : match position b l with
  | Some pos => pos < length l /\ nth pos l 0 = b
  | None => ~ In b l
  end.
Proof.
  induction l as [|x l IH]; simpl; [tauto|]. destruct (Nat.eqb_spec x b) as [->|N]; [split; [lia|reflexivity]|].
  destruct (position b l) as [pos|]; simpl; [destruct IH; split; [lia|assumption]|]. intros [K|K]; contradiction.
Qed.

(** the pool of a bucket contains what the bucket receives *)
Lemma pool_sub cl A counts b : Forall2 proper cl A ->
  Forall2 (fun ca o => o = None \/ o = Some (counts_of (fst ca) (snd ca))) (combine cl A) counts ->
  exists rest, Permutation (received (concat (map c_values cl)) (concat A) b ++ rest) (bucket_pool cl counts b).
Proof.
  intro F. revert counts. induction F as [|c a cl A [E I1] F IH]; intros counts R; inversion R as [|? o ? counts' Ro R']; subst.
  - exists []. constructor.
  - destruct (IH counts' R') as (rest & P). cbn [map concat]. rewrite received_app by auto.
    unfold bucket_pool in *. cbn [combine flat_map fst snd] in *.
    pose proof (position_spec b (c_eligible c)) as X. destruct (position b (c_eligible c)) as [pos|].
    + destruct X as [X1 X2]. destruct (received_sub (c_values c) a b (eq_sym E)) as (r1 & P1).
      assert (Q : exists r0, Permutation (received (c_values c) a b ++ r0)
                   (if match o with Some c0 => 0 <? nth pos c0 0 | None => true end then c_values c else [])).
      { destruct Ro as [->| ->]; [eauto|]. unfold counts_of. cbn [fst snd].
        rewrite (nth_indep _ 0 (count_occ Nat.eq_dec a 0)) by (rewrite map_length; exact X1).
        rewrite (map_nth (count_occ Nat.eq_dec a) (c_eligible c) 0 pos), X2.
        destruct (Nat.ltb_spec 0 (count_occ Nat.eq_dec a b)) as [L|L]; [eauto|].
        exists []. rewrite received_none by lia. constructor. }
      destruct Q as (r0 & Q). exists (r0 ++ rest).
      etransitivity; [|apply Permutation_app; [exact Q|exact P]].
      rewrite <- !app_assoc. apply Permutation_app_head. rewrite !app_assoc. apply Permutation_app_tail. apply Permutation_app_comm.
    + exists rest. rewrite received_none; [exact P|]. apply count_occ_not_In. intro K. apply X, I1, K.
Qed.

Lemma prefix_counts {A B} (f : A -> B) l i :
  Forall2 (fun x o => o = None \/ o = Some (f x)) l (map Some (firstn i (map f l)) ++ repeat None (length l - length (firstn i (map f l)))).
Proof.
  revert i. induction l as [|x l IH]; intros [|i]; simpl; try constructor; auto.
  clear IH. assert (G : forall l : list A, Forall2 (fun x o => o = None \/ o = Some (f x)) l (repeat None (length l))).
  { clear. induction l; simpl; constructor; auto. }
  apply G.
Qed.

(** an accepted part is feasible in any pool that contains it *)
Lemma accepted_feasible eval t e part rest pool p : table_for t e -> In (IOk p) (matches eval t part) ->
  Permutation (part ++ rest) pool -> feasible_neighs eval t pool = true.
Proof.
  intros T H P. destruct (feasible_neighs eval t pool) eqn:F; [reflexivity|]. exfalso.
  pose proof T as (B & R & _ & W & Z & NF & S).
  assert (Null : cond_nullable e = true -> False).
  { intro N. apply cond_nullable_spec in N; [|exact W].
    unfold feasible_neighs in F. rewrite R, rs_from_rbe in F by exact NF.
    rewrite (feasible_sound (fun _ => 0) (hi_of eval t pool) e bzero) in F; [discriminate|right; reflexivity| |exact N].
    intro a. unfold bzero. lia. }
  assert (Items : In (IOk p) (empty_items t) -> False).
  { unfold empty_items. rewrite R, rs_from_rbe by exact NF. destruct (cond_nullable e); [auto|]. intros [K|[]]. discriminate. }
  destruct part as [|kv part].
  - apply Items. exact H.
  - destruct (Nat.eq_dec (list_sum (map (@length nat) (map (candidates_of eval t) (kv :: part)))) 0) as [NF0|NF0].
    + apply Items. unfold matches in H. rewrite NF0 in H. exact H.
    + destruct (matches_sound eval t (kv :: part) p B) as (cs & A & M & _); [discriminate|exact NF0|exact H|].
      apply (table_infeasible eval t e pool T F (kv :: part) rest cs P A). apply (usable_interval t e cs T). exact M.
Qed.

Lemma enumerate_In {A} (l : list A) b x d : In (b, x) (enumerate l) -> b < length l /\ nth b l d = x.
Proof.
  unfold enumerate. assert (G : forall k, In (b, x) (combine (seq k (length l)) l) -> k <= b < k + length l /\ nth (b - k) l d = x).
  { induction l as [|y l IH]; intros k H; [destruct H|]. simpl in H. destruct H as [H|H].
    - injection H as -> ->. simpl. rewrite Nat.sub_diag. split; [lia|reflexivity].
    - apply IH in H. destruct H as [H1 H2]. simpl length. split; [lia|].
      replace (b - k) with (S (b - S k)) by lia. exact H2. }
  intro H. apply G in H. rewrite Nat.sub_0_r in H. split; [lia|tauto].
Qed.

Lemma concat_inj {A} (ls ms : list (list A)) : Forall2 (fun v w => length v = length w) ls ms -> concat ls = concat ms -> ls = ms.
Proof.
  induction 1 as [|v w ls ms E F IH]; simpl; intro H; [reflexivity|].
  assert (G : v = w /\ concat ls = concat ms).
  { revert w E H. induction v as [|x v IHv]; intros [|y w] E H; try discriminate; [auto|].
    simpl in H. injection H as -> H. injection E as E. destruct (IHv w E H) as [-> ->]. auto. }
  destruct G as [-> G]. f_equal. auto.
Qed.

Lemma unconcat {B C} (R : B -> C -> Prop) (vs : list (list B)) a : Forall2 R (concat vs) a ->
  exists A, a = concat A /\ Forall2 (fun v w => Forall2 R v w) vs A.
Proof.
  revert a. induction vs as [|v vs IH]; simpl; intros a H.
  - inversion H. exists []. split; [reflexivity|constructor].
  - apply Forall2_app_inv_l in H. destruct H as (a1 & a2 & H1 & H2 & ->). destruct (IH a2 H2) as (A & -> & F).
    exists (a1 :: A). split; [reflexivity|]. constructor; assumption.
Qed.

Lemma class_partitions_spec (acc : table -> list (nat * nat) -> Prop) eval buckets neighs classes :
  (forall b t, In t (nth b buckets []) -> tbuilt t) ->
  (forall b t part rest pool, In t (nth b buckets []) -> acc t part -> Permutation (part ++ rest) pool ->
     feasible_neighs eval t pool = true) ->
  classes_of buckets neighs classes ->
  let k := length buckets in
  let placed := concat (map c_values classes) in
  exists l,
    collected eval buckets classes (start eval buckets classes) (map (distribution placed k) l) /\ NoDup l /\
    (forall a, In a l -> sends_to_mentioning buckets placed a) /\
    (forall a, sends_to_mentioning buckets placed a -> accepted acc buckets placed a -> In a l).
Proof.
  intros HB HA HC k placed. destruct (classes_spec buckets neighs classes HC) as [SC _].
  rewrite Forall_forall in SC.
  assert (ES : forall c, In c classes -> c_eligible c <> []) by (intros c Hc; apply SC; exact Hc).
  assert (EV : forall c, In c classes -> exists kv, In kv (c_values c) /\ c_eligible c = eligible_of buckets (fst kv)).
  { intros c Hc. destruct (SC c Hc) as (S1 & _ & S3). destruct (c_values c) as [|kv vs] eqn:E; [contradiction|].
    exists kv. split; [left; reflexivity|]. symmetry. apply S3. left. reflexivity. }
  assert (EN : forall c, In c classes -> NoDup (c_eligible c)).
  { intros c Hc. destruct (EV c Hc) as (kv & _ & E). rewrite E. apply eligible_NoDup. }
  assert (EB : forall c b, In c classes -> In b (c_eligible c) -> b < k).
  { intros c b Hc Hb. destruct (EV c Hc) as (kv & _ & E). rewrite E in Hb. apply (eligible_mentions buckets HB) in Hb. apply Hb. }
  pose proof (all_tuples_in eval buckets classes EN ES) as TI.
  exists (map (@concat nat) (all_tuples eval buckets classes)). split; [|split; [|split]].
  - rewrite map_map. erewrite map_ext_in; [apply collected_start; exact ES|].
    intros A HIn. symmetry. apply current_distribution; [apply TI in HIn; apply HIn|exact EB].
  - assert (ND : NoDup (all_tuples eval buckets classes)) by (apply all_tuples_NoDup; assumption).
    assert (INJ : forall A A', In A (all_tuples eval buckets classes) -> In A' (all_tuples eval buckets classes) -> concat A = concat A' -> A = A').
    { intros A A' H1 H2 E. apply TI in H1. apply TI in H2. destruct H1 as [FA _]. destruct H2 as [FA' _].
      apply concat_inj; [|exact E]. clear -FA FA'. revert A' FA'.
      induction FA as [|c a cl A [E1 _] F IH]; intros A' FA'; inversion FA' as [|? a' ? A1 [E2 _] F2]; subst; constructor; [congruence|auto]. }
    clear TI. induction (all_tuples eval buckets classes) as [|A l IH]; simpl; [constructor|].
    inversion ND; subst. constructor.
    + intro H. apply in_map_iff in H. destruct H as (A' & E & H).
      assert (A' = A) by (apply INJ; [right; exact H|left; reflexivity|exact E]). subst. contradiction.
    + apply IH; [assumption|]. intros. apply INJ; [right; assumption|right; assumption|assumption].
  - intros a Ha. apply in_map_iff in Ha. destruct Ha as (A & <- & H1). apply TI in H1. destruct H1 as [FP _].
    unfold sends_to_mentioning, placed. clear HC TI HA.
    induction FP as [|c a cl A [E I1] FP IH]; simpl; [constructor|]. apply Forall2_app.
    + assert (S3 : forall kv, In kv (c_values c) -> eligible_of buckets (fst kv) = c_eligible c) by (apply SC; left; reflexivity).
      revert a E I1. induction (c_values c) as [|kv vs IHv]; intros [|i a] E I1; try discriminate; constructor.
      * apply (eligible_mentions buckets HB). rewrite (S3 kv) by (left; reflexivity). apply I1. left. reflexivity.
      * apply IHv; [intros; apply S3; right; assumption|injection E as E; exact E|intros y Hy; apply I1; right; exact Hy].
    + apply IH; intros; (apply SC || apply ES || apply EV || apply EN || (eapply EB; [|eassumption])); right; assumption.
  - intros a Sa Ac. unfold sends_to_mentioning, placed in Sa. apply unconcat in Sa. destruct Sa as (A & -> & FA).
    apply in_map. apply TI.
    assert (FP : Forall2 proper classes A).
    { clear -FA SC HB. revert FA. generalize dependent A. revert SC. generalize classes as cl. intros cl SC.
      induction cl as [|c cl IH]; intros A FA; inversion FA as [|? a ? A' F1 F2]; subst; constructor.
      - destruct (SC c (or_introl eq_refl)) as (_ & _ & S3). split; [symmetry; eapply Forall2_len; exact F1|].
        clear FA. revert S3. induction F1 as [|kv b vs a [Hb M] F1 IHF]; intros S3 x Hx; [destruct Hx|].
        destruct Hx as [<-|Hx].
        + rewrite <- (S3 kv) by (left; reflexivity). apply (eligible_mentions buckets HB). auto.
        + apply IHF; [|exact Hx]. intros; apply S3; right; assumption.
      - apply IH; [intros; apply SC; right; assumption|exact F2]. }
    split; [exact FP|]. intros i Hi. unfold feasible_now. apply forallb_forall. intros [b rbes] Hb.
    apply (enumerate_In buckets b rbes []) in Hb. destruct Hb as [Hb Eb]. cbn [fst snd].
    apply forallb_forall. intros t Ht. rewrite <- Eb in Ht. pose proof (Ac b t Hb Ht) as Hp.
    assert (LC : length (combine classes A) = length classes).
    { rewrite combine_length, (Forall2_len _ _ _ FP). lia. }
    destruct (pool_sub classes A (st classes (firstn i (count_vectors classes A))) b FP) as (rest & P).
    { unfold st, count_vectors. rewrite <- LC at 1. apply prefix_counts. }
    exact (HA b t _ rest _ Ht Hp P).
Qed.

Lemma filter_perm {A} (f : A -> bool) l : Permutation (filter f l ++ filter (fun x => negb (f x)) l) l.
Proof.
  induction l as [|x l IH]; simpl; [constructor|]. destruct (f x); simpl; [apply perm_skip; exact IH|].
  etransitivity; [apply Permutation_sym, Permutation_middle|]. apply perm_skip. exact IH.
Qed.

Lemma placed_spec buckets neighs classes : (forall b t, In t (nth b buckets []) -> tbuilt t) ->
  classes_of buckets neighs classes -> exists dropped,
  Permutation (concat (map c_values classes) ++ dropped) neighs /\
  (forall kv, In kv (concat (map c_values classes)) -> exists b, b < length buckets /\ mentions buckets b (fst kv)) /\
  (forall kv b, In kv dropped -> b < length buckets -> ~ mentions buckets b (fst kv)).
Proof.
  intros HB HC. destruct (classes_spec buckets neighs classes HC) as [_ P].
  exists (filter (fun kv => negb (has_bucket buckets kv)) neighs). split.
  - etransitivity; [apply Permutation_app_tail; exact P|]. apply filter_perm.
  - split.
    + intros kv H. apply (Permutation_in _ P), filter_In in H. destruct H as [_ H]. unfold has_bucket in H.
      destruct (eligible_of buckets (fst kv)) as [|b l] eqn:E; [discriminate|]. exists b.
      apply (eligible_mentions buckets HB). rewrite E. left. reflexivity.
    + intros kv b H Hb M. apply filter_In in H. destruct H as [_ H]. unfold has_bucket in H.
      destruct (eligible_of buckets (fst kv)) as [|b' l] eqn:E; [|discriminate].
      assert (K : In b (eligible_of buckets (fst kv))) by (apply (eligible_mentions buckets HB); auto).
      rewrite E in K. destruct K.
Qed.

Lemma class_partitions_total (acc : table -> list (nat * nat) -> Prop) eval buckets neighs classes :
  (forall b t, In t (nth b buckets []) -> tbuilt t) ->
  (forall b t part rest pool, In t (nth b buckets []) -> acc t part -> Permutation (part ++ rest) pool ->
     feasible_neighs eval t pool = true) ->
  classes_of buckets neighs classes ->
  exists placed dropped l,
    Permutation (placed ++ dropped) neighs /\
    (forall kv b, In kv dropped -> b < length buckets -> ~ mentions buckets b (fst kv)) /\
    collected eval buckets classes (start eval buckets classes) (map (distribution placed (length buckets)) l) /\ NoDup l /\
    (forall a, In a l -> sends_to_mentioning buckets placed a) /\
    (forall a, sends_to_mentioning buckets placed a -> accepted acc buckets placed a -> In a l).
Proof.
  intros HB HA HC. destruct (class_partitions_spec acc eval buckets neighs classes HB HA HC) as (l & C & R).
  destruct (placed_spec buckets neighs classes HB HC) as (dropped & P & _ & D).
  exists (concat (map c_values classes)), dropped, l. auto.
Qed.

Lemma can_match_feasible eval t part rest pool : tbuilt t -> can_match eval t part ->
  Permutation (part ++ rest) pool -> feasible_neighs eval t pool = true.
Proof.
  intros B (e & cs & R & NF & A & L) P. unfold feasible_neighs. rewrite R, rs_from_rbe by exact NF.
  apply (feasible_sound (fun _ => 0) (hi_of eval t pool) e (bag_of cs)); [right; reflexivity| |exact L].
  intro a. split; [lia|]. etransitivity; [apply (hi_count eval t part a B cs A)|]. exact (hi_sub eval t part rest pool a P).
Qed.

Lemma matcher_feasible eval t part rest pool : (exists e, table_for t e) -> matcher_accepts eval t part ->
  Permutation (part ++ rest) pool -> feasible_neighs eval t pool = true.
Proof. intros (e & T) (p & H) P. exact (accepted_feasible eval t e part rest pool p T H P). Qed.
