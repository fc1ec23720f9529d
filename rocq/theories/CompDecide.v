(** The meaning of compiled expressions is decidable, whatever the expression. *)
From Coq Require Import List Arith Bool Lia Permutation.
Import ListNotations.
From Verif Require Import RbeModel RbeSpec RbeDeriv RbeFinal PendingModel TableModel TableSpec TableLemmas EngineModel EngineSpec EngineShape
  CompMeaning.

(** ** splitting a list in two *)
Fixpoint splits {A} (l : list A) : list (list A * list A) :=
  match l with
  | [] => [([], [])]
  | x :: r => flat_map (fun ab => [(x :: fst ab, snd ab); (fst ab, x :: snd ab)]) (splits r)
  end.
Lemma splits_perm {A} (l : list A) a b : In (a, b) (splits l) -> Permutation l (a ++ b).
Proof.
  revert a b. induction l as [|x l IH]; intros a b H; cbn [splits] in H.
  - destruct H as [H|[]]. injection H as <- <-. constructor.
  - apply in_flat_map in H. destruct H as ([a' b'] & I & [H|[H|[]]]); injection H as <- <-; cbn [fst snd app].
    + constructor. apply IH. exact I.
    + apply Permutation_cons_app. apply IH. exact I.
Qed.
Lemma splits_complete {A} (l : list A) a b : Permutation l (a ++ b) ->
  exists a' b', In (a', b') (splits l) /\ Permutation a a' /\ Permutation b b'.
Proof.
  revert a b. induction l as [|x l IH]; intros a b P; cbn [splits].
  - apply Permutation_nil in P. apply app_eq_nil in P. destruct P as [-> ->]. exists [], []. split; [left; reflexivity|]. split; constructor.
  - assert (I : In x (a ++ b)) by (apply (Permutation_in _ P); left; reflexivity). apply in_app_iff in I. destruct I as [I|I].
    + apply in_split in I. destruct I as (a1 & a2 & ->). rewrite <- app_assoc in P. cbn [app] in P. apply Permutation_cons_app_inv in P.
      rewrite app_assoc in P. destruct (IH _ _ P) as (a' & b' & H & Pa & Pb). exists (x :: a'), b'. split.
      * apply in_flat_map. exists (a', b'). split; [exact H|left; reflexivity].
      * split; [|exact Pb]. apply Permutation_sym, Permutation_cons_app, Permutation_sym, Pa.
    + apply in_split in I. destruct I as (b1 & b2 & ->). rewrite app_assoc in P. apply Permutation_cons_app_inv in P. rewrite <- app_assoc in P.
      destruct (IH _ _ P) as (a' & b' & H & Pa & Pb). exists a', (x :: b'). split.
      * apply in_flat_map. exists (a', b'). split; [exact H|right; left; reflexivity].
      * split; [exact Pa|]. apply Permutation_sym, Permutation_cons_app, Permutation_sym, Pb.
Qed.

(** a bag that is a sum *)
Lemma bag_split l b1 b2 : beq (bag_of l) (bsum b1 b2) ->
  exists l1 l2, In (l1, l2) (splits l) /\ beq (bag_of l1) b1 /\ beq (bag_of l2) b2.
Proof.
  intro E. assert (F : Forall2 (@eq nat) l l) by (clear; induction l; constructor; auto).
  destruct (F2_split nat (@eq nat) l l F b1 b2 E) as (a1 & a2 & c1 & c2 & P & F1 & F2 & E1 & E2).
  assert (D : forall a c, Forall2 (@eq nat) a c -> a = c) by (induction 1; subst; reflexivity). apply D in F1, F2. subst.
  destruct (splits_complete l c1 c2 P) as (a' & b' & H & Pa & Pb). exists a', b'. split; [exact H|].
  split; (eapply beq_trans; [apply bag_of_perm, Permutation_sym; eassumption|assumption]).
Qed.
Lemma bag_unsplit l l1 l2 : In (l1, l2) (splits l) -> beq (bag_of l) (bsum (bag_of l1) (bag_of l2)).
Proof. intro H. apply splits_perm in H. eapply beq_trans; [apply bag_of_perm; exact H|apply bag_of_app]. Qed.

(** ** languages *)
Definition le_maxb (n : nat) (m : max) : bool := match m with Unbounded => true | IntMax k => n <=? k end.
Definition in_cardb (n : nat) (c : card) : bool := (cmin c <=? n) && le_maxb n (cmax c).
Lemma in_cardb_spec n c : in_cardb n c = true <-> in_card n c.
Proof.
  unfold in_cardb, in_card. rewrite andb_true_iff, Nat.leb_le. destruct (cmax c); cbn [le_maxb le_max]; rewrite ?Nat.leb_le; tauto.
Qed.
Definition nilb {A} (l : list A) : bool := match l with [] => true | _ => false end.
Lemma nilb_spec l : nilb l = true <-> beq (bag_of l) bzero.
Proof. rewrite bag_of_zero. destruct l; cbn; split; congruence. Qed.

Fixpoint powb (f : list nat -> bool) (k : nat) (l : list nat) : bool :=
  match k with
  | 0 => nilb l
  | S k => existsb (fun ab => f (fst ab) && powb f k (snd ab)) (splits l)
  end.
Fixpoint langb (e : rbe) (l : list nat) {struct e} : bool :=
  match e with
  | Fail _ => false
  | Empty => nilb l
  | Symbol v c => forallb (Nat.eqb v) l && in_cardb (length l) c
  | And vs => (fix all vs l := match vs with
                               | [] => nilb l
                               | v :: r => existsb (fun ab => langb v (fst ab) && all r (snd ab)) (splits l)
                               end) vs l
  | Or vs => (fix any vs := match vs with [] => false | v :: r => langb v l || any r end) vs
  | Star v => existsb (fun k => powb (langb v) k l) (seq 0 (S (length l)))
  | Plus v => existsb (fun k => powb (langb v) k l) (seq 1 (S (length l)))
  | Repeat v c => existsb (fun k => in_cardb k c && powb (langb v) k l) (seq 0 (S (Nat.max (cmin c) (length l))))
  end.

Lemma sum_split (f1 f2 : list nat -> bool) (P1 P2 : mbag -> Prop) : RbeDeriv.ext P1 -> RbeDeriv.ext P2 ->
  (forall l, f1 l = true <-> P1 (bag_of l)) -> (forall l, f2 l = true <-> P2 (bag_of l)) ->
  forall l, existsb (fun ab => f1 (fst ab) && f2 (snd ab)) (splits l) = true <-> exists b1 b2, beq (bag_of l) (bsum b1 b2) /\ P1 b1 /\ P2 b2.
Proof.
  intros X1 X2 H1 H2 l. rewrite existsb_exists. split.
  - intros ([a b] & I & H). cbn [fst snd] in H. apply andb_true_iff in H. destruct H as [A B]. apply H1 in A. apply H2 in B.
    exists (bag_of a), (bag_of b). split; [exact (bag_unsplit _ _ _ I)|split; assumption].
  - intros (b1 & b2 & E & B1 & B2). destruct (bag_split l b1 b2 E) as (l1 & l2 & I & E1 & E2). exists (l1, l2). split; [exact I|].
    apply andb_true_iff. cbn [fst snd]. split; [apply H1; exact (X1 _ _ (beq_sym _ _ E1) B1)|apply H2; exact (X2 _ _ (beq_sym _ _ E2) B2)].
Qed.
Lemma powb_spec f P : RbeDeriv.ext P -> (forall l, f l = true <-> P (bag_of l)) -> forall k l, powb f k l = true <-> pow P k (bag_of l).
Proof.
  intros X H. induction k as [|k IH]; intro l; cbn [powb pow]; [apply nilb_spec|].
  apply sum_split; [exact X|apply pow_ext|exact H|exact IH].
Qed.

(** a power with more parts than there are members has an empty part *)
Lemma pow_less P : RbeDeriv.ext P -> forall k l, length l <= k -> pow P (S k) (bag_of l) -> pow P k (bag_of l).
Proof.
  intro X. induction k as [|k IH]; intros l L (b1 & b2 & E & H1 & H2).
  - destruct l; [|cbn in L; lia]. apply beq_refl.
  - destruct (bag_split l b1 b2 E) as (l1 & l2 & I & E1 & E2). pose proof (Permutation_length (splits_perm _ _ _ I)) as LN.
    rewrite app_length in LN. assert (G : pow P (S k) (bag_of l2)) by (eapply pow_ext; [apply beq_sym; exact E2|exact H2]).
    destruct l1 as [|x l1].
    + eapply pow_ext; [|exact G]. intro z. pose proof (bag_unsplit _ _ _ I z) as U. unfold bsum, bag_of in U. cbn [count_occ] in U.
      unfold bag_of. lia.
    + cbn [length] in LN. exists (bag_of (x :: l1)), (bag_of l2). split; [exact (bag_unsplit _ _ _ I)|].
      split; [exact (X _ _ (beq_sym _ _ E1) H1)|]. apply IH; [lia|exact G].
Qed.
Lemma pow_bound P : RbeDeriv.ext P -> forall l k m, length l <= m -> m <= k -> pow P k (bag_of l) -> pow P m (bag_of l).
Proof.
  intros X l k m L LE. induction LE as [|k LE IH]; [auto|]. intro H. apply IH. apply pow_less; [exact X|lia|exact H].
Qed.

Lemma langb_spec e : forall l, langb e l = true <-> lang e (bag_of l).
Proof.
  induction e using rbe_ind'; intro l.
  - cbn. split; [discriminate|tauto].
  - apply nilb_spec.
  - cbn [langb lang]. rewrite andb_true_iff, in_cardb_spec, forallb_forall.
    assert (CL : forall c l, (forall y, In y l -> c = y) -> bag_of l c = length l).
    { intros c0 m. unfold bag_of. induction m as [|x m IH]; intro H; [reflexivity|]. cbn [count_occ length].
      rewrite <- (H x (or_introl eq_refl)). destruct (Nat.eq_dec c0 c0); [|congruence]. f_equal. apply IH. intros y I. apply H. right. exact I. }
    split.
    + intros [A B]. assert (A' : forall y, In y l -> v = y) by (intros y I; apply Nat.eqb_eq, A, I). split.
      * intros a N. unfold bag_of. apply count_occ_not_In. intro I. apply N. symmetry. exact (A' a I).
      * rewrite (CL v l A'). exact B.
    + intros [A B]. assert (A' : forall y, In y l -> v = y).
      { intros y I. destruct (Nat.eq_dec y v) as [->|N]; [reflexivity|]. specialize (A y N). unfold bag_of in A. apply count_occ_not_In in A. destruct (A I). }
      split; [intros y I; apply Nat.eqb_eq; exact (A' y I)|]. rewrite (CL v l A') in B. exact B.
  - cbn [langb lang]. revert l. induction H as [|v vs Hv Hvs IH]; intro l; cbn [map sum_of]; [apply nilb_spec|].
    apply sum_split; [apply lang_ext|apply sum_of_ext|exact Hv|exact IH].
  - cbn [langb lang]. induction H as [|v vs Hv Hvs IH]; cbn [map any_of]; [split; [discriminate|tauto]|].
    rewrite orb_true_iff, (Hv l), IH. tauto.
  - cbn [langb lang]. rewrite existsb_exists. pose proof (powb_spec _ _ (lang_ext e) IHe) as PS. split.
    + intros (k & _ & H). exists k. apply PS. exact H.
    + intros (k & H). destruct (Nat.le_gt_cases k (length l)) as [L|L].
      * exists k. split; [apply in_seq; lia|apply PS; exact H].
      * exists (length l). split; [apply in_seq; lia|]. apply PS. apply (pow_bound _ (lang_ext e) l k); [lia|lia|exact H].
  - cbn [langb lang]. rewrite existsb_exists. pose proof (powb_spec _ _ (lang_ext e) IHe) as PS. split.
    + intros (k & I & H). exists k. apply in_seq in I. split; [lia|]. apply PS. exact H.
    + intros (k & L1 & H). destruct (Nat.le_gt_cases k (S (length l))) as [L|L].
      * exists k. split; [apply in_seq; lia|apply PS; exact H].
      * exists (S (length l)). split; [apply in_seq; lia|]. apply PS. apply (pow_bound _ (lang_ext e) l k); [lia|lia|exact H].
  - cbn [langb lang]. rewrite existsb_exists. pose proof (powb_spec _ _ (lang_ext e) IHe) as PS. split.
    + intros (k & I & H). apply andb_true_iff in H. destruct H as [A B]. exists k. split; [apply in_cardb_spec; exact A|apply PS; exact B].
    + intros (k & [K1 K2] & H). destruct (Nat.le_gt_cases k (Nat.max (cmin c) (length l))) as [L|L].
      * exists k. split; [apply in_seq; lia|]. apply andb_true_iff. split; [apply in_cardb_spec; split; assumption|apply PS; exact H].
      * exists (Nat.max (cmin c) (length l)). split; [apply in_seq; lia|]. apply andb_true_iff. split.
        -- apply in_cardb_spec. split; [lia|]. destruct (cmax c); cbn [le_max] in *; try exact Logic.I; lia.
        -- apply PS. apply (pow_bound _ (lang_ext e) l k); [lia|lia|exact H].
Qed.

(** ** shapes *)
Section Decide.
  Variable eval : nat -> nat -> bool.
  Variable external : nat -> nat -> bool.
  Variable g : rdf.

  Fixpoint cond_satb (T : typing) (c : mcond) (v : nat) : bool :=
    match c with
    | CSingle (Some k) => eval k v
    | CSingle None => true
    | CRef r => T v r
    | CAnd cs => forallb (fun c => cond_satb T c v) cs
    end.
  Lemma cond_satb_spec T c v : cond_satb T c v = true <-> cond_sat eval T c v.
  Proof.
    induction c as [[k|]|r|cs IH] using mcond_ind'; cbn [cond_satb].
    - rewrite cond_sat_single. tauto.
    - rewrite cond_sat_none. tauto.
    - rewrite cond_sat_ref. tauto.
    - rewrite cond_sat_and, forallb_forall. rewrite Forall_forall in IH. split; intros H c I; apply (IH c I); exact (H c I).
  Qed.

  Definition arcb (T : typing) (t : table) (kv : nat * nat) (c : nat) : bool :=
    match nth_error (t_ckey t) c, nth_error (t_cond t) c with
    | Some k, Some cd => (k =? fst kv) && cond_satb T cd (snd kv)
    | _, _ => false
    end.
  Lemma arcb_spec T t kv c : arcb T t kv c = true <-> arc_matches eval T t kv c.
  Proof.
    unfold arcb, arc_matches, component. split.
    - destruct (nth_error (t_ckey t) c) as [k|]; [|discriminate]. destruct (nth_error (t_cond t) c) as [cd|]; [|discriminate].
      intro H. apply andb_true_iff in H. destruct H as [A B]. apply Nat.eqb_eq in A. subst k. apply cond_satb_spec in B.
      exists cd. split; [split; reflexivity|exact B].
    - intros (cd & [A B] & C). rewrite A, B, Nat.eqb_refl. apply cond_satb_spec. exact C.
  Qed.
  Lemma arcb_range T t kv c : arc_matches eval T t kv c -> c < length (t_cond t).
  Proof. intros (cd & [_ A] & _). apply nth_error_Some. congruence. Qed.

  Definition pair_dec : forall a b : nat * nat, {a = b} + {a <> b}.
  Proof. decide equality; apply Nat.eq_dec. Defined.
  Definition arcs_of (n : nat) : list (nat * nat) := nodup pair_dec (fst (neighs n (all_preds g) g)).
  Lemma arcs_of_spec n l : neighbourhood g n l <-> Permutation (arcs_of n) l.
  Proof.
    assert (X : forall k v, In (k, v) (arcs_of n) <-> exists p, (k = direct p /\ In (n, p, v) g) \/ (k = EngineModel.inverse p /\ In (v, p, n) g)).
    { intros k v. unfold arcs_of. rewrite nodup_In, neighs_In. split; [intros [_ H]; exact H|].
      intros (p & H). split; [|eauto]. unfold all_preds. apply in_flat_map. destruct H as [[-> H]|[-> H]].
      - exists (n, p, v). split; [exact H|left; reflexivity].
      - exists (v, p, n). split; [exact H|right; left; reflexivity]. }
    assert (N : NoDup (arcs_of n)) by apply NoDup_nodup. split.
    - intros [D H]. apply NoDup_Permutation; [exact N|exact D|]. intros [k v]. rewrite X, H. tauto.
    - intro P. split; [exact (Permutation_NoDup P N)|]. intros k v. rewrite <- X. split; intro I.
      + exact (Permutation_in _ (Permutation_sym P) I).
      + exact (Permutation_in _ P I).
  Qed.

  Definition mentionedb (t : table) (k : nat) : bool := existsb (fun kc => fst kc =? k) (combine (t_ckey t) (t_cond t)).
  Lemma mentionedb_spec t k : mentionedb t k = true <-> mentioned t k.
  Proof.
    unfold mentionedb, mentioned. rewrite existsb_exists. split.
    - intros ([k' cd] & I & E). cbn [fst] in E. apply Nat.eqb_eq in E. subst k'. apply combine_component in I. destruct I as (c & I). eauto.
    - intros (c & cd & H). exists (k, cd). split; [exact (In_combine_component _ _ _ _ H)|apply Nat.eqb_refl].
  Qed.
  Definition restb (T : typing) (s : shape) (kv : nat * nat) : bool :=
    negb (is_direct (fst kv)) ||
    if mentionedb (s_table s) (fst kv)
    then existsb (Nat.eqb (fst kv)) (s_extra s) && negb (existsb (arcb T (s_table s) kv) (seq 0 (length (t_cond (s_table s)))))
    else negb (s_closed s).
  Lemma restb_spec T s k v : restb T s (k, v) = true <->
    (is_direct k = true ->
        (mentioned (s_table s) k -> In k (s_extra s) /\ ~ exists c, arc_matches eval T (s_table s) (k, v) c) /\
        (~ mentioned (s_table s) k -> s_closed s = false)).
  Proof.
    unfold restb. cbn [fst]. pose proof (mentionedb_spec (s_table s) k) as M.
    destruct (is_direct k); cbn [negb orb]; [|split; [intros _; discriminate|reflexivity]].
    destruct (mentionedb (s_table s) k).
    - rewrite andb_true_iff, negb_true_iff. split.
      + intros [A B] _. split; [|intro N; destruct N; apply M; reflexivity]. intros _. split.
        * apply existsb_exists in A. destruct A as (k' & I & E). apply Nat.eqb_eq in E. subst. exact I.
        * intros (c & H). assert (Y : existsb (arcb T (s_table s) (k, v)) (seq 0 (length (t_cond (s_table s)))) = true); [|congruence].
          apply existsb_exists. exists c. split; [apply in_seq; pose proof (arcb_range _ _ _ _ H); lia|apply arcb_spec; exact H].
      + intro H. destruct (H eq_refl) as [H1 _]. destruct (H1 (proj1 M eq_refl)) as [A B]. split.
        * apply existsb_exists. exists k. split; [exact A|apply Nat.eqb_refl].
        * destruct (existsb _ _) eqn:E; [|reflexivity]. apply existsb_exists in E. destruct E as (c & _ & E). apply arcb_spec in E. destruct B. eauto.
    - rewrite negb_true_iff. split.
      + intros H _. split; [intro N; apply M in N; discriminate|auto].
      + intro H. apply (H eq_refl). intro N. apply M in N. discriminate.
  Qed.

  Definition shapeb (T : typing) (n : nat) (s : shape) : bool :=
    existsb (fun ab =>
      forallb (restb T s) (snd ab) &&
      existsb (langb (rs_rbe (t_rbe (s_table s))))
              (cart (map (fun kv => filter (arcb T (s_table s) kv) (seq 0 (length (t_cond (s_table s))))) (fst ab))))
      (splits (arcs_of n)).
  Lemma candidates_spec T t a cs :
    In cs (cart (map (fun kv => filter (arcb T t kv) (seq 0 (length (t_cond t)))) a)) <-> Forall2 (arc_matches eval T t) a cs.
  Proof.
    rewrite cart_spec. split.
    - revert cs. induction a as [|kv a IH]; intros cs F; inversion F as [|? c ? cs' H F']; subst; constructor; [|exact (IH _ F')].
      apply filter_In in H. apply arcb_spec. exact (proj2 H).
    - induction 1 as [|kv c a cs H F IH]; cbn [map]; constructor; [|exact IH]. apply filter_In.
      split; [apply in_seq; pose proof (arcb_range _ _ _ _ H); lia|apply arcb_spec; exact H].
  Qed.
  Lemma shapeb_spec T n s : shapeb T n s = true <-> shape_holds eval g T n s.
  Proof.
    unfold shapeb, shape_holds. rewrite existsb_exists. split.
    - intros ([a b] & I & H). cbn [fst snd] in H. apply andb_true_iff in H. destruct H as [A B]. apply existsb_exists in B.
      destruct B as (cs & C & L). exists a, b, cs. split; [apply arcs_of_spec, splits_perm, I|]. split; [apply candidates_spec; exact C|].
      split; [apply langb_spec; exact L|]. intros k v J. apply restb_spec. rewrite forallb_forall in A. exact (A _ J).
    - intros (a & b & cs & NB & F & L & R). apply arcs_of_spec in NB. destruct (splits_complete _ _ _ NB) as (a' & b' & I & Pa & Pb).
      exists (a', b'). split; [exact I|]. cbn [fst snd]. apply andb_true_iff. split.
      + apply forallb_forall. intros [k v] J. apply restb_spec. apply R. exact (Permutation_in _ (Permutation_sym Pb) J).
      + destruct (F2_perm _ _ a a' cs Pa F) as (cs' & P & F'). apply existsb_exists. exists cs'. split; [apply candidates_spec; exact F'|].
        apply langb_spec. eapply lang_ext; [apply bag_of_perm; exact P|exact L].
  Qed.

  Definition holdsb (T : typing) (n l : nat) (e : sexpr) : bool :=
    match e with
    | EAnd es => forallb (T n) es
    | EOr es => existsb (T n) es
    | ENot i => negb (T n i)
    | ENode c => cond_satb (fun _ _ => true) c n
    | EShape s => shapeb T n s
    | EExternal => external n l
    | ERef i => T n i
    | EEmpty => true
    end.
  Lemma holdsb_spec T n l e : holdsb T n l e = true <-> holds eval external (shape_holds eval g) T n l e.
  Proof.
    destruct e as [es|es|i|c|s| |i|]; cbn [holdsb holds].
    - rewrite existsb_exists. tauto.
    - rewrite forallb_forall. tauto.
    - apply negb_true_iff.
    - rewrite cond_satb_spec. unfold cond_sat. tauto.
    - apply shapeb_spec.
    - tauto.
    - tauto.
    - tauto.
  Qed.
End Decide.
