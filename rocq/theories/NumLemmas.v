From Coq Require Import ZArith QArith Qabs List Bool Lia.
From Verif Require Import NumModel NumSpec.
Local Open Scope Z_scope.

Lemma pow10_pos n : 0 < pow10 n.
Proof. unfold pow10. apply Z.pow_pos_nonneg; lia. Qed.
Lemma pow10_S n : pow10 (Datatypes.S n) = 10 * pow10 n.
Proof. unfold pow10. rewrite Nat2Z.inj_succ, Z.pow_succ_r by lia. reflexivity. Qed.
Lemma pow10_add a b : pow10 (a + b) = pow10 a * pow10 b.
Proof. unfold pow10. rewrite Nat2Z.inj_add. apply Z.pow_add_r; lia. Qed.
Lemma den_pow n : Z.pos (Z.to_pos (10 ^ Z.of_nat n)) = pow10 n.
Proof. change (10 ^ Z.of_nat n) with (pow10 n). apply Z2Pos.id. apply pow10_pos. Qed.

Lemma qcmp_dec a b : (dec_value a ?= dec_value b)%Q = dec_cmp a b.
Proof. unfold Qcompare, dec_value, dec_cmp. cbn [Qnum Qden]. rewrite !den_pow. reflexivity. Qed.

(** ** Normalisation *)
Lemma normalize_eq s : forall m, mant (normalize_parts m s) * pow10 s = m * pow10 (scale (normalize_parts m s)).
Proof.
  induction s as [|s IH]; intro m; cbn [normalize_parts mant scale]; [reflexivity|].
  destruct (Z.eqb_spec (m mod 10) 0) as [E|E]; [|reflexivity].
  specialize (IH (m / 10)). rewrite pow10_S. assert (D : m = 10 * (m / 10)) by (apply Z_div_exact_full_2; lia).
  rewrite D at 2. nia.
Qed.
Definition canonical (d : dec) : Prop := scale d = O \/ mant d mod 10 <> 0.
Lemma normalize_canonical s : forall m, canonical (normalize_parts m s).
Proof.
  induction s as [|s IH]; intro m; cbn [normalize_parts]; [left; reflexivity|].
  destruct (Z.eqb_spec (m mod 10) 0) as [E|E]; [apply IH|right; exact E].
Qed.
Lemma normalize_value d : (dec_value (normalize d) == dec_value d)%Q.
Proof.
  unfold Qeq, dec_value. cbn [Qnum Qden]. rewrite !den_pow. unfold normalize. apply normalize_eq.
Qed.
Lemma canonical_unique_le a b : canonical b -> (scale a <= scale b)%nat -> mant a * pow10 (scale b) = mant b * pow10 (scale a) -> a = b.
Proof.
  destruct a as [m s], b as [m' s']. unfold canonical. cbn [mant scale]. intros C L E.
  assert (X : exists k, s' = (s + k)%nat) by (exists (s' - s)%nat; lia). destruct X as [k ->]. rewrite pow10_add in E.
  pose proof (pow10_pos s) as P. assert (E' : m * pow10 k = m') by nia. destruct k as [|k].
  - unfold pow10 in E'. cbn in E'. rewrite Nat.add_0_r. f_equal. lia.
  - exfalso. destruct C as [C|C]; [lia|]. apply C. rewrite <- E', pow10_S.
    replace (m * (10 * pow10 k)) with (m * pow10 k * 10) by ring. apply Z_mod_mult.
Qed.
Lemma canonical_unique a b : canonical a -> canonical b -> dec_cmp a b = Eq -> a = b.
Proof.
  intros A B E. unfold dec_cmp in E. apply Z.compare_eq in E. destruct (le_ge_dec (scale a) (scale b)) as [L|L].
  - apply canonical_unique_le; auto.
  - symmetry. apply canonical_unique_le; auto.
Qed.
Lemma dec_cmp_Eq a b : dec_cmp a b = Eq <-> (dec_value a == dec_value b)%Q.
Proof. rewrite <- qcmp_dec. symmetry. apply Qeq_alt. Qed.
Lemma dec_eqb_spec a b : dec_eqb a b = true <-> (dec_value a == dec_value b)%Q.
Proof. rewrite <- dec_cmp_Eq. unfold dec_eqb. destruct (dec_cmp a b); split; congruence. Qed.
Lemma equal_normalized a b : dec_eqb a b = true -> normalize a = normalize b.
Proof.
  intro E. apply dec_eqb_spec in E. apply canonical_unique; [apply normalize_canonical|apply normalize_canonical|].
  apply dec_cmp_Eq. rewrite !normalize_value. exact E.
Qed.

Lemma ikind_eqb_spec a b : ikind_eqb a b = true <-> a = b.
Proof. destruct a, b; cbn; split; congruence. Qed.

(** ** Equality, hashing, ordering *)
Section Eq.
  Variable from_f64 from_f32 : Z -> option dec.
  Notation to_decimal := (to_decimal from_f64 from_f32).
  Notation num_eqb := (num_eqb from_f64 from_f32).

  (** two unconvertible literals are equal exactly when they are the same *)
  Lemma num_eqb_spec a b : num_eqb a b = true <->
    match to_decimal a, to_decimal b with
    | Some x, Some y => (dec_value x == dec_value y)%Q
    | None, None => a = b
    | _, _ => False
    end.
  Proof.
    unfold NumModel.num_eqb. destruct (to_decimal a) as [x|] eqn:A, (to_decimal b) as [y|] eqn:B; [apply dec_eqb_spec| | |];
      destruct a as [k n|d|u|u], b as [k' n'|d'|u'|u']; cbn [NumModel.to_decimal] in A, B;
      rewrite ?andb_true_iff, ?ikind_eqb_spec, ?Z.eqb_eq; split; intro H; try discriminate; try contradiction;
      try match type of H with _ /\ _ => destruct H as [? ?] end; try (injection H as ? ?); subst; try congruence; auto.
  Qed.

  Lemma num_eqb_refl a : num_eqb a a = true.
  Proof. apply num_eqb_spec. destruct (to_decimal a); reflexivity. Qed.
  Lemma num_eqb_sym a b : num_eqb a b = true -> num_eqb b a = true.
  Proof.
    rewrite !num_eqb_spec. destruct (to_decimal a), (to_decimal b); try tauto; intro H; symmetry; exact H.
  Qed.
  Lemma num_eqb_trans a b c : num_eqb a b = true -> num_eqb b c = true -> num_eqb a c = true.
  Proof.
    rewrite !num_eqb_spec. destruct (to_decimal a), (to_decimal b), (to_decimal c); try tauto; intros H G; rewrite H; exact G.
  Qed.
  Lemma num_eqb_hash a b : num_eqb a b = true -> num_hash from_f64 from_f32 a = num_hash from_f64 from_f32 b.
  Proof.
    rewrite num_eqb_spec. unfold num_hash. destruct (to_decimal a) as [x|] eqn:A, (to_decimal b) as [y|] eqn:B; try tauto.
    - intro H. f_equal. apply equal_normalized. apply dec_eqb_spec. exact H.
    - intros ->. reflexivity.
  Qed.
  Lemma partial_cmp_Eq a b : partial_cmp from_f64 from_f32 a b = Some Eq <-> num_eqb a b = true /\ to_decimal a <> None.
  Proof.
    rewrite num_eqb_spec. unfold partial_cmp. destruct (to_decimal a) as [x|], (to_decimal b) as [y|].
    - rewrite <- dec_cmp_Eq. split; [intro H; injection H as H; split; congruence|intros [H _]; congruence].
    - split; [discriminate|tauto].
    - split; [discriminate|intros [[] _]].
    - split; [discriminate|intros [_ H]; congruence].
  Qed.

  (** ** Facets *)
  Notation represented := (represented from_f64 from_f32).
  Lemma int_represented k z : Z.abs z <= max_mant -> represented (NInt k z).
  Proof.
    intro L. exists {| mant := z; scale := O |}. cbn [NumModel.to_decimal]. unfold dec_of_int.
    apply Z.leb_le in L. rewrite L. split; [reflexivity|]. cbn. unfold Qeq, dec_value. cbn. lia.
  Qed.
  Lemma decimal_represented d : represented (NDecimal d).
  Proof. exists d. split; [reflexivity|]. cbn. reflexivity. Qed.
  Lemma dec_of_int_None z : dec_of_int z = None <-> max_mant < Z.abs z.
  Proof. unfold dec_of_int. destruct (Z.leb_spec (Z.abs z) max_mant); split; try discriminate; auto; lia. Qed.

  Lemma represented_lt a b : represented a -> represented b -> (opt_lt (to_decimal a) (to_decimal b) = true <-> xlt (value a) (value b)).
  Proof.
    intros (x & A & VA) (y & B & VB). rewrite A, B. cbn [opt_lt]. rewrite <- qcmp_dec.
    destruct (value a) as [|n|p]; try contradiction. destruct (value b) as [|m|q]; try contradiction. cbn [xeq xlt] in *.
    rewrite <- VA, <- VB, Qlt_alt. destruct (dec_value x ?= dec_value y)%Q; split; congruence.
  Qed.
  Lemma represented_le a b : represented a -> represented b -> (opt_le (to_decimal a) (to_decimal b) = true <-> xle (value a) (value b)).
  Proof.
    intros (x & A & VA) (y & B & VB). rewrite A, B. cbn [opt_le]. rewrite <- qcmp_dec. unfold xle.
    destruct (value a) as [|n|p]; try contradiction. destruct (value b) as [|m|q]; try contradiction. cbn [xeq xlt] in *.
    rewrite <- VA, <- VB, <- Qle_lteq, Qle_alt. destruct (dec_value x ?= dec_value y)%Q; split; congruence.
  Qed.
  Definition comparable (a b : num) : Prop := represented a /\ represented b \/ exists x y, a = NInt KInteger x /\ b = NInt KInteger y.
  Lemma less_than_spec a b : comparable a b -> (less_than from_f64 from_f32 a b = true <-> xlt (value a) (value b)).
  Proof.
    assert (I : forall x y, (x <? y) = true <-> xlt (value (NInt KInteger x)) (value (NInt KInteger y))).
    { intros x y. cbn. rewrite Z.ltb_lt. unfold Qlt. cbn. lia. }
    intros [[A B]|(x & y & -> & ->)]; [|apply I].
    destruct a as [[] x|d|u|u]; try (apply represented_lt; assumption).
    destruct b as [[] y|d|u|u]; try (apply represented_lt; assumption). apply I.
  Qed.
  Lemma less_than_or_eq_spec a b : comparable a b -> (less_than_or_eq from_f64 from_f32 a b = true <-> xle (value a) (value b)).
  Proof.
    assert (I : forall x y, (x <=? y) = true <-> xle (value (NInt KInteger x)) (value (NInt KInteger y))).
    { intros x y. unfold xle. cbn. rewrite Z.leb_le. unfold Qlt, Qeq. cbn. lia. }
    intros [[A B]|(x & y & -> & ->)]; [|apply I].
    destruct a as [[] x|d|u|u]; try (apply represented_le; assumption).
    destruct b as [[] y|d|u|u]; try (apply represented_le; assumption). apply I.
  Qed.
  Lemma xnot_lt a b : comparable a b -> (~ xlt (value a) (value b) <-> xle (value b) (value a)).
  Proof.
    intro C. assert (F : finite (value a) /\ finite (value b)).
    { destruct C as [[(x & _ & A) (y & _ & B)]|(x & y & -> & ->)]; [|cbn; auto].
      destruct (value a), (value b); cbn in *; tauto. }
    destruct F as [FA FB]. unfold xle. destruct (value a) as [| |p], (value b) as [| |q]; cbn in *; try tauto.
    rewrite <- Qle_lteq. split; [apply Qnot_lt_le|apply Qle_not_lt].
  Qed.
  Lemma xnot_le a b : comparable a b -> (~ xle (value a) (value b) <-> xlt (value b) (value a)).
  Proof.
    intro C. assert (F : finite (value a) /\ finite (value b)).
    { destruct C as [[(x & _ & A) (y & _ & B)]|(x & y & -> & ->)]; [|cbn; auto].
      destruct (value a), (value b); cbn in *; tauto. }
    destruct F as [FA FB]. unfold xle. destruct (value a) as [| |p], (value b) as [| |q]; cbn in *; try tauto.
    rewrite <- Qle_lteq. split; [apply Qnot_le_lt|apply Qlt_not_le].
  Qed.
  Lemma comparable_sym a b : comparable a b -> comparable b a.
  Proof. intros [[A B]|(x & y & -> & ->)]; [left; auto|right; eauto]. Qed.
  Lemma negb_iff b P : (b = true <-> P) -> (negb b = true <-> ~ P).
  Proof. intro H. rewrite <- H. destruct b; cbn; split; congruence. Qed.
  Lemma facets_spec v b : comparable v b ->
    (min_inclusive from_f64 from_f32 v b = true <-> xle (value b) (value v)) /\
    (min_exclusive from_f64 from_f32 v b = true <-> xlt (value b) (value v)) /\
    (max_exclusive from_f64 from_f32 v b = true <-> xlt (value v) (value b)) /\
    (max_inclusive from_f64 from_f32 v b = true <-> xle (value v) (value b)).
  Proof.
    intro C. unfold min_inclusive, min_exclusive, max_exclusive, max_inclusive.
    split; [rewrite (negb_iff _ _ (less_than_spec v b C)); apply xnot_lt; exact C|].
    split; [rewrite (negb_iff _ _ (less_than_or_eq_spec v b C)); apply xnot_le; exact C|].
    split; [apply less_than_spec; exact C|apply less_than_or_eq_spec; exact C].
  Qed.
  (** what happens with a literal that has no decimal *)
  Lemma facets_no_decimal v b : to_decimal v = None -> to_decimal b <> None ->
    min_inclusive from_f64 from_f32 v b = false /\ min_exclusive from_f64 from_f32 v b = false /\
    max_exclusive from_f64 from_f32 v b = true /\ max_inclusive from_f64 from_f32 v b = true \/
    exists x y, v = NInt KInteger x /\ b = NInt KInteger y.
  Proof.
    intros V B.
    assert (G : opt_lt (to_decimal v) (to_decimal b) = true /\ opt_le (to_decimal v) (to_decimal b) = true).
    { rewrite V. destruct (to_decimal b); [split; reflexivity|congruence]. }
    destruct G as [G1 G2]. unfold min_inclusive, min_exclusive, max_exclusive, max_inclusive, less_than, less_than_or_eq.
    destruct v as [[] x|d|u|u]; try (left; rewrite G1, G2; repeat split; reflexivity).
    destruct b as [[] y|d|u|u]; try (left; rewrite G1, G2; repeat split; reflexivity). right. eauto.
  Qed.
End Eq.

(** ** Digits *)
Lemma ndigits_fuel_spec f : forall n t, 0 <= n < 2 ^ Z.of_nat (Datatypes.S f) -> (1 <= t)%nat ->
  ((ndigits_fuel f n <= t)%nat <-> n < pow10 t).
Proof.
  induction f as [|f IH]; intros n t B T; cbn [ndigits_fuel].
  - split; [intros _|intros _; exact T]. destruct t as [|t]; [lia|]. rewrite pow10_S. pose proof (pow10_pos t). cbn in B. lia.
  - destruct (Z.ltb_spec n 10) as [L|L].
    + split; [intros _|intros _; exact T]. destruct t as [|t]; [lia|]. rewrite pow10_S. pose proof (pow10_pos t). lia.
    + destruct t as [|t]; [lia|]. rewrite pow10_S.
      assert (D : n / 10 < pow10 t <-> n < 10 * pow10 t).
      { pose proof (Z_div_mod_eq_full n 10). pose proof (Z.mod_pos_bound n 10). split; nia. }
      rewrite <- D. destruct t as [|t].
      * split; [intro H; exfalso; destruct f as [|f']; cbn [ndigits_fuel] in H; [lia|]; destruct (n / 10 <? 10); lia|]. unfold pow10. cbn. intro H. assert (n / 10 >= 1) by (apply Z.le_ge, Z.div_le_lower_bound; lia). lia.
      * rewrite <- (IH (n / 10) (Datatypes.S t)); [lia| |lia].
        rewrite (Nat2Z.inj_succ (Datatypes.S f)), Z.pow_succ_r in B by lia. split; [apply Z.div_pos; lia|].
        apply Z.div_lt_upper_bound; lia.
Qed.
Lemma ndigits_spec n t : 0 <= n -> (1 <= t)%nat -> ((ndigits n <= t)%nat <-> n < pow10 t).
Proof.
  intros N T. unfold ndigits. apply ndigits_fuel_spec; [|exact T]. split; [exact N|].
  destruct (Z.eq_dec n 0) as [->|NZ]; [cbn; lia|]. rewrite Nat2Z.inj_succ, Z2Nat.id by (apply Z.log2_nonneg).
  apply Z.log2_spec. lia.
Qed.
Lemma ndigits_pos n : (1 <= ndigits n)%nat.
Proof. unfold ndigits. destruct (Z.to_nat (Z.log2 n)); cbn [ndigits_fuel]; [lia|]. destruct (n <? 10); lia. Qed.

Lemma qeq_dec m s i n : (Qmake m (Z.to_pos (10 ^ Z.of_nat s)) == Qmake i (Z.to_pos (10 ^ Z.of_nat n)))%Q <-> m * pow10 n = i * pow10 s.
Proof. unfold Qeq. cbn [Qnum Qden]. rewrite !den_pow. reflexivity. Qed.

Lemma canonical_minimal d i n : canonical d -> mant d * pow10 n = i * pow10 (scale d) -> (scale d <= n)%nat.
Proof.
  intros C E. destruct (le_gt_dec (scale d) n) as [L|L]; [exact L|]. exfalso.
  assert (X : exists k, scale d = (n + Datatypes.S k)%nat) by (exists (scale d - n - 1)%nat; lia). destruct X as [k K].
  rewrite K, pow10_add, pow10_S in E. pose proof (pow10_pos n).
  assert (mant d = i * pow10 k * 10) by nia. destruct C as [C|C]; [lia|]. apply C. rewrite H0. apply Z_mod_mult.
Qed.

Lemma fraction_spec d f : has_fraction_digits (dec_value d) f <-> (scale (normalize d) <= f)%nat.
Proof.
  split.
  - intros (i & n & L & E). rewrite <- normalize_value in E. apply qeq_dec in E.
    apply canonical_minimal in E; [lia|apply normalize_canonical].
  - intro L. exists (mant (normalize d)), (scale (normalize d)). split; [exact L|]. rewrite <- normalize_value. reflexivity.
Qed.
(** the number of total digits of a decimal is the larger of the digits of its mantissa and its scale *)
Lemma total_spec d t : (1 <= t)%nat -> (has_total_digits (dec_value d) t <->
  (Nat.max (ndigits (Z.abs (mant (normalize d)))) (scale (normalize d)) <= t)%nat).
Proof.
  intro T. split.
  - intros (i & n & L & B & E). rewrite <- normalize_value in E. apply qeq_dec in E.
    assert (M : (scale (normalize d) <= n)%nat) by exact (canonical_minimal _ _ _ (normalize_canonical _ _) E). apply Nat.max_lub; [|lia].
    apply ndigits_spec; [lia|exact T|]. change (10 ^ Z.of_nat t) with (pow10 t) in B.
    assert (X : exists k, n = (scale (normalize d) + k)%nat) by (exists (n - scale (normalize d))%nat; lia). destruct X as [k ->].
    rewrite pow10_add in E. pose proof (pow10_pos (scale (normalize d))). pose proof (pow10_pos k).
    assert (i = mant (normalize d) * pow10 k) by (apply (Z.mul_cancel_r _ _ (pow10 (scale (normalize d)))); lia). subst i. rewrite Z.abs_mul, (Z.abs_eq (pow10 k)) in B by lia.
    pose proof (Z.abs_nonneg (mant (normalize d))). nia.
  - intro M. exists (mant (normalize d)), (scale (normalize d)). split; [lia|]. split.
    + change (10 ^ Z.of_nat t) with (pow10 t). apply ndigits_spec; lia.
    + rewrite <- normalize_value. reflexivity.
Qed.
Lemma int_total z t : (1 <= t)%nat -> (has_total_digits (inject_Z z) t <-> (ndigits (Z.abs z) <= t)%nat).
Proof.
  intro T. pose proof (total_spec {| mant := z; scale := O |} t T) as S. unfold normalize in S. cbn [mant scale normalize_parts] in S.
  rewrite Nat.max_0_r in S. rewrite <- S. unfold dec_value, inject_Z, has_total_digits. cbn. reflexivity.
Qed.
Lemma total_digits_int k z t : imin k <= z <= imax k -> (1 <= t)%nat ->
  (total_digits_ok (NInt k z) t = true <-> has_total_digits (inject_Z z) t).
Proof.
  intros B T. rewrite int_total by exact T.
  assert (E : total_digits (NInt k z) = Some (ndigits (Z.abs z))).
  { destruct k; cbn [total_digits imin imax] in *; f_equal;
      try (rewrite Z.abs_eq by lia; reflexivity);
      match goal with |- context [?a =? ?b] => destruct (Z.eqb_spec a b) as [->|]; vm_compute; reflexivity || reflexivity end. }
  unfold total_digits_ok. rewrite E. apply Nat.leb_le.
Qed.
(** a decimal below one has one digit too many *)
Lemma total_digits_dec d t : (1 <= t)%nat ->
  (total_digits_ok (NDecimal d) t = true <->
   has_total_digits (dec_value d) t /\ (scale (normalize d) < t)%nat).
Proof.
  intro T. rewrite total_spec by exact T. unfold total_digits_ok. cbn [total_digits]. rewrite Nat.leb_le. lia.
Qed.
Lemma large_scale d : (1 <= Qabs (dec_value d))%Q -> (scale (normalize d) < ndigits (Z.abs (mant (normalize d))))%nat.
Proof.
  intro G. rewrite <- normalize_value in G. set (e := normalize d) in *. clearbody e.
  unfold dec_value, Qabs, Qle in G. cbn [Qnum Qden] in G. rewrite den_pow in G.
  destruct (le_gt_dec (ndigits (Z.abs (mant e))) (scale e)) as [L|L]; [|lia]. exfalso.
  pose proof (ndigits_pos (Z.abs (mant e))). apply ndigits_spec in L; lia.
Qed.
