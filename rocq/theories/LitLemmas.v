From Coq Require Import ZArith NArith QArith List Bool Lia Permutation.
Import ListNotations.
From Verif Require Import NumModel NumSpec NumLemmas LitModel LitSpec.
Local Open Scope Z_scope.

(** ** strings *)
Lemma str_eqb_spec a : forall b, str_eqb a b = true <-> a = b.
Proof.
  induction a as [|x a IH]; destruct b as [|y b]; cbn [str_eqb]; try (split; congruence).
  rewrite andb_true_iff, N.eqb_eq, IH. split; [intros [-> ->]; reflexivity|intro H; injection H; auto].
Qed.
Lemma str_eqb_refl a : str_eqb a a = true.
Proof. apply str_eqb_spec. reflexivity. Qed.
Lemma str_cmp_Eq a : forall b, str_cmp a b = Eq <-> a = b.
Proof.
  induction a as [|x a IH]; destruct b as [|y b]; cbn [str_cmp]; try (split; congruence).
  destruct (N.compare_spec x y) as [->|C|C].
  - rewrite IH. split; [intros ->; reflexivity|intro H; injection H; auto].
  - split; [discriminate|]. intro H. injection H as -> _. lia.
  - split; [discriminate|]. intro H. injection H as -> _. lia.
Qed.
Lemma str_cmp_opp a : forall b, str_cmp b a = CompOpp (str_cmp a b).
Proof.
  induction a as [|x a IH]; destruct b as [|y b]; cbn [str_cmp]; try reflexivity.
  rewrite (N.compare_antisym x y), IH. destruct (N.compare x y); reflexivity.
Qed.
Lemma str_cmp_trans a : forall b c, str_cmp a b = Lt -> str_cmp b c = Lt -> str_cmp a c = Lt.
Proof.
  induction a as [|x a IH]; destruct b as [|y b]; destruct c as [|z c]; cbn [str_cmp]; intros H K; try discriminate; try reflexivity.
  destruct (N.compare_spec x y) as [->|C|C]; try discriminate; destruct (N.compare_spec y z) as [->|D|D]; try discriminate.
  - eapply IH; eauto.
  - reflexivity.
  - destruct (N.compare_spec x z); subst; try reflexivity; lia.
  - destruct (N.compare_spec x z); subst; try reflexivity; lia.
Qed.
Lemma dtype_eqb_spec a b : dtype_eqb a b = true <-> a = b.
Proof.
  destruct a, b; cbn [dtype_eqb]; try (split; congruence).
  - rewrite ikind_eqb_spec. split; congruence.
  - rewrite str_eqb_spec. split; congruence.
Qed.
Lemma dtype_eqb_refl a : dtype_eqb a a = true.
Proof. apply dtype_eqb_spec. reflexivity. Qed.
Lemma dtype_eqb_sym a b : dtype_eqb a b = dtype_eqb b a.
Proof.
  destruct (dtype_eqb a b) eqn:E, (dtype_eqb b a) eqn:F; try reflexivity.
  - apply dtype_eqb_spec in E. subst. rewrite dtype_eqb_refl in F. discriminate.
  - apply dtype_eqb_spec in F. subst. rewrite dtype_eqb_refl in E. discriminate.
Qed.

(** ** digits *)
Lemma digit_of_spec c d : digit_of c = Some d <-> is_digit c /\ d = Z.of_N c - 48.
Proof.
  unfold digit_of, is_digit. destruct ((48 <=? c)%N && (c <=? 57)%N) eqn:E.
  - apply andb_true_iff in E. rewrite !N.leb_le in E. split; [intro H; injection H as <-; auto|intros [_ ->]; reflexivity].
  - split; [discriminate|]. intros [[A B] _]. apply N.leb_le in A, B. rewrite A, B in E. discriminate.
Qed.
Lemma digits_from_spec s : forall acc z, digits_from acc s = Some z <->
  Forall is_digit s /\ fold_left (fun a c => 10 * a + (Z.of_N c - 48)) s acc = z.
Proof.
  induction s as [|c s IH]; intros acc z; cbn [digits_from fold_left].
  - split; [intro H; injection H as <-; auto|intros [_ ->]; reflexivity].
  - destruct (digit_of c) as [d|] eqn:E.
    + apply digit_of_spec in E as [D ->]. rewrite IH. split; [intros [F H]; auto|intros [F H]; inversion F; auto].
    + split; [discriminate|]. intros [F _]. inversion F as [|? ? D _ E1]; subst.
      assert (X : digit_of c = Some (Z.of_N c - 48)) by (apply digit_of_spec; auto). congruence.
Qed.
Lemma digits_spec s z : digits s = Some z <-> unsigned_lexical s z.
Proof.
  unfold unsigned_lexical, digits_value. destruct s as [|c s]; [split; [discriminate|intros [H _]; contradiction]|].
  cbn [digits]. rewrite digits_from_spec. intuition discriminate.
Qed.
Lemma fold_nonneg s : forall acc, Forall is_digit s -> 0 <= acc -> 0 <= fold_left (fun a c => 10 * a + (Z.of_N c - 48)) s acc.
Proof.
  induction s as [|c s IH]; intros acc F A; cbn [fold_left]; [exact A|]. inversion F as [|? ? D F']; subst. unfold is_digit in D. apply IH; [exact F'|lia].
Qed.
Lemma unsigned_nonneg s z : unsigned_lexical s z -> 0 <= z.
Proof. intros (_ & F & <-). apply fold_nonneg; [exact F|lia]. Qed.
Lemma not_digit_plus s z : ~ unsigned_lexical (43%N :: s) z.
Proof. intros (_ & F & _). inversion F as [|? ? D _]; subst. unfold is_digit in D. lia. Qed.
Lemma not_digit_minus s z : ~ unsigned_lexical (45%N :: s) z.
Proof. intros (_ & F & _). inversion F as [|? ? D _]; subst. unfold is_digit in D. lia. Qed.
Lemma unsigned_fun s a b : unsigned_lexical s a -> unsigned_lexical s b -> a = b.
Proof. intros (_ & _ & <-) (_ & _ & <-). reflexivity. Qed.
Lemma int_lexical_fun s a b : int_lexical s a -> int_lexical s b -> a = b.
Proof.
  intros A B. inversion A as [s1 z1 U1|s1 z1 U1|s1 z1 U1]; subst; inversion B as [s2 z2 U2|s2 z2 U2|s2 z2 U2]; subst;
    try (eapply unsigned_fun; eassumption); try (exfalso; eapply not_digit_plus; eassumption); try (exfalso; eapply not_digit_minus; eassumption).
  f_equal. eapply unsigned_fun; eassumption.
Qed.

(** ** parsing *)
Lemma in_range_spec lo hi a z : in_range lo hi a = Some z <-> a = z /\ lo <= z <= hi.
Proof.
  unfold in_range. destruct ((lo <=? a) && (a <=? hi)) eqn:E.
  - apply andb_true_iff in E. rewrite !Z.leb_le in E. split; [intro H; injection H as <-; auto|intros [-> _]; reflexivity].
  - split; [discriminate|]. intros [-> [A B]]. apply Z.leb_le in A, B. rewrite A, B in E. discriminate.
Qed.
Lemma parse_signed_spec lo hi s z : parse_signed lo hi s = Some z <-> int_lexical s z /\ lo <= z <= hi.
Proof.
  unfold parse_signed. destruct s as [|c r].
  - split; [discriminate|]. intros [H _]. inversion H as [s1 z1 (U & _)| |]; subst. contradiction.
  - destruct (N.eqb_spec c plus) as [->|P]; [|destruct (N.eqb_spec c minus) as [->|M]].
    + split.
      * destruct (digits r) as [a|] eqn:E; [|discriminate]. rewrite in_range_spec. intros [-> R]. split; [|exact R]. apply il_plus, digits_spec, E.
      * intros [H R]. inversion H as [s1 z1 U|s1 z1 U|s1 z1 U]; subst; [exfalso; eapply not_digit_plus, U|].
        apply digits_spec in U. rewrite U. apply in_range_spec. auto.
    + split.
      * destruct (digits r) as [a|] eqn:E; [|discriminate]. cbn [option_map]. rewrite in_range_spec. intros [<- R]. split; [|exact R]. apply il_minus, digits_spec, E.
      * intros [H R]. inversion H as [s1 z1 U|s1 z1 U|s1 z1 U]; subst; [exfalso; eapply not_digit_minus, U|].
        apply digits_spec in U. rewrite U. cbn [option_map]. apply in_range_spec. auto.
    + split.
      * destruct (digits (c :: r)) as [a|] eqn:E; [|discriminate]. rewrite in_range_spec. intros [-> R]. split; [|exact R]. apply il_none, digits_spec, E.
      * intros [H R]. inversion H as [s1 z1 U|s1 z1 U|s1 z1 U]; subst; [|exfalso; apply P; reflexivity|exfalso; apply M; reflexivity].
        apply digits_spec in U. rewrite U. apply in_range_spec. auto.
Qed.
Lemma parse_unsigned_spec hi s z : parse_unsigned hi s = Some z <->
  (unsigned_lexical s z \/ exists r, s = 43%N :: r /\ unsigned_lexical r z) /\ z <= hi.
Proof.
  unfold parse_unsigned. destruct s as [|c r].
  - split; [discriminate|]. intros [[(U & _)|(r & E & _)] _]; [contradiction|discriminate].
  - destruct (N.eqb_spec c plus) as [->|P].
    + split.
      * destruct (digits r) as [a|] eqn:E; [|discriminate]. rewrite in_range_spec. intros [-> R]. split; [|lia]. right. exists r. split; [reflexivity|]. apply digits_spec, E.
      * intros [[U|(r' & E & U)] R]; [exfalso; eapply not_digit_plus, U|]. injection E as <-.
        pose proof (unsigned_nonneg _ _ U). apply digits_spec in U. rewrite U. apply in_range_spec. auto.
    + split.
      * destruct (digits (c :: r)) as [a|] eqn:E; [|discriminate]. rewrite in_range_spec. intros [-> R]. split; [|lia]. left. apply digits_spec, E.
      * intros [[U|(r' & E & U)] R]; [|injection E as -> <-; exfalso; apply P; reflexivity].
        pose proof (unsigned_nonneg _ _ U). apply digits_spec in U. rewrite U. apply in_range_spec. auto.
Qed.
Lemma parse_unsigned_lexical hi s z : parse_unsigned hi s = Some z -> int_lexical s z /\ 0 <= z <= hi.
Proof.
  rewrite parse_unsigned_spec. intros [[U|(r & -> & U)] H]; pose proof (unsigned_nonneg _ _ U); (split; [|lia]); [apply il_none|apply il_plus]; exact U.
Qed.
Lemma parse_unsigned_complete hi s z : int_lexical s z -> 0 <= z <= hi -> ~ (exists r, s = 45%N :: r) -> parse_unsigned hi s = Some z.
Proof.
  intros I R M. apply parse_unsigned_spec. split; [|lia]. inversion I as [s1 z1 U|s1 z1 U|s1 z1 U]; subst; [left; exact U|right; eauto|].
  exfalso. apply M. eauto.
Qed.

Lemma strip_spec c s r : strip c s = Some r <-> s = c :: r.
Proof.
  destruct s as [|x s]; cbn [strip]; [split; discriminate|]. destruct (N.eqb_spec x c) as [->|D]; split; intro H; try discriminate; injection H; intros; subst; try contradiction; reflexivity.
Qed.
Lemma parse_non_negative_sound s z : parse_non_negative s = Some z -> int_lexical s z /\ 0 <= z < 2 ^ 128 \/ double_sign s /\ 0 <= z < 2 ^ 128.
Proof.
  unfold parse_non_negative.
  assert (B : forall t, parse_unsigned u128_max t = Some z -> int_lexical t z /\ 0 <= z < 2 ^ 128).
  { intros t H. apply parse_unsigned_lexical in H. unfold u128_max in H. split; [apply H|lia]. }
  destruct (strip plus s) as [r|] eqn:P.
  - apply strip_spec in P. subst s. destruct (strip minus r) as [q|] eqn:M.
    + apply strip_spec in M. subst r. destruct (parse_unsigned u128_max q) as [v|]; [|discriminate]. destruct (v =? 0); [|discriminate].
      intro H. injection H as <-. right. split; [|lia]. exists plus, minus, q. unfold plus, minus. auto.
    + intro H. apply parse_unsigned_spec in H as [[U|(q & -> & U)] R]; unfold u128_max in R; pose proof (unsigned_nonneg _ _ U).
      * left. split; [apply il_plus, U|lia].
      * right. split; [|lia]. exists plus, plus, q. unfold plus. auto.
  - destruct (strip minus s) as [q|] eqn:M.
    + apply strip_spec in M. subst s. destruct (parse_unsigned u128_max q) as [v|] eqn:E; [|discriminate]. destruct (Z.eqb_spec v 0) as [->|]; [|discriminate].
      intro H. injection H as <-. apply parse_unsigned_spec in E as [[U|(r & -> & U)] _].
      * left. split; [apply (il_minus q 0 U)|lia].
      * right. split; [|lia]. exists minus, plus, r. unfold minus, plus. auto.
    + intro H. left. apply B, H.
Qed.
Lemma parse_non_negative_complete s z : int_lexical s z -> 0 <= z < 2 ^ 128 -> parse_non_negative s = Some z.
Proof.
  intros I R. unfold parse_non_negative. inversion I as [s1 z1 U|s1 z1 U|s1 z1 U]; subst.
  - destruct (strip plus s) as [r|] eqn:P; [apply strip_spec in P; subst s; exfalso; eapply not_digit_plus, U|].
    destruct (strip minus s) as [r|] eqn:M; [apply strip_spec in M; subst s; exfalso; eapply not_digit_minus, U|].
    apply parse_unsigned_spec. split; [left; exact U|unfold u128_max; lia].
  - replace (strip plus (43%N :: s1)) with (Some s1) by (symmetry; apply strip_spec; reflexivity).
    destruct (strip minus s1) as [r|] eqn:M; [apply strip_spec in M; subst s1; exfalso; eapply not_digit_minus, U|].
    apply parse_unsigned_spec. split; [left; exact U|unfold u128_max; lia].
  - pose proof (unsigned_nonneg _ _ U). assert (z1 = 0) by lia. subst z1.
    cbn [strip]. replace (45 =? plus)%N with false by reflexivity.
    replace (strip minus (45%N :: s1)) with (Some s1) by (symmetry; apply strip_spec; reflexivity).
    assert (E : parse_unsigned u128_max s1 = Some 0) by (apply parse_unsigned_spec; split; [left; exact U|unfold u128_max; lia]).
    rewrite E. reflexivity.
Qed.

Lemma parse_int_sound k s z : parse_int k s = Some z ->
  xsd_int k s z /\ fits k z \/ k = KNonNegativeInteger /\ double_sign s /\ 0 <= z < 2 ^ 128.
Proof.
  unfold parse_int, xsd_int. destruct k; intro H;
    try (apply parse_signed_spec in H; unfold i128_min, i128_max in H; cbn [imin imax] in H; left; cbn [int_value fits]; split; [split; [apply H|lia]|lia]);
    try (apply parse_unsigned_lexical in H; unfold u128_max in H; cbn [imin imax] in H; left; cbn [int_value fits]; split; [split; [apply H|lia]|lia]).
  - apply parse_non_negative_sound in H as [[H R]|[H R]]; [left|right; auto]. cbn [int_value fits]. split; [split; [exact H|lia]|lia].
  - destruct (parse_unsigned u128_max s) as [a|] eqn:E; [|discriminate]. destruct (Z.ltb_spec 0 a); [|discriminate]. injection H as <-.
    apply parse_unsigned_lexical in E as [E R]. unfold u128_max in R. left. cbn [int_value fits]. split; [split; [exact E|lia]|lia].
  - destruct (parse_signed i128_min i128_max s) as [a|] eqn:E; [|discriminate]. destruct (Z.ltb_spec a 0); [|discriminate]. injection H as <-.
    apply parse_signed_spec in E as [E R]. unfold i128_min, i128_max in R. left. cbn [int_value fits]. split; [split; [exact E|lia]|lia].
  - destruct (parse_signed i128_min i128_max s) as [a|] eqn:E; [|discriminate]. destruct (Z.leb_spec a 0); [|discriminate]. injection H as <-.
    apply parse_signed_spec in E as [E R]. unfold i128_min, i128_max in R. left. cbn [int_value fits]. split; [split; [exact E|lia]|lia].
Qed.
Lemma parse_int_complete k s z : xsd_int k s z -> fits k z -> (signless k -> ~ exists r, s = 45%N :: r) -> parse_int k s = Some z.
Proof.
  intros [I V] F M. unfold parse_int.
  destruct k; cbn [int_value fits signless] in *; try specialize (M Logic.I);
    try (apply parse_signed_spec; unfold i128_min, i128_max; cbn [imin imax]; split; [exact I|lia]);
    try (apply parse_unsigned_complete; [exact I|cbn [imin imax]; lia|exact M]).
  - apply parse_non_negative_complete; [exact I|lia].
  - rewrite (parse_unsigned_complete u128_max s z I); [|unfold u128_max; lia|].
    + destruct (Z.ltb_spec 0 z); [reflexivity|lia].
    + intros [r ->]. inversion I as [s1 z1 U|s1 z1 U|s1 z1 U]; subst; [eapply not_digit_minus, U|]. apply unsigned_nonneg in U. lia.
  - assert (E : parse_signed i128_min i128_max s = Some z) by (apply parse_signed_spec; unfold i128_min, i128_max; split; [exact I|lia]).
    rewrite E. destruct (Z.ltb_spec z 0); [reflexivity|lia].
  - assert (E : parse_signed i128_min i128_max s = Some z) by (apply parse_signed_spec; unfold i128_min, i128_max; split; [exact I|lia]).
    rewrite E. destruct (Z.leb_spec z 0); [reflexivity|lia].
Qed.
Lemma parse_int_range k s z : parse_int k s = Some z -> imin k <= z <= imax k.
Proof.
  intro H. apply parse_int_sound in H as [[[_ V] F]|(-> & _ & R)]; [|cbn; lia].
  destruct k; cbn [int_value fits imin imax] in *; lia.
Qed.
Lemma parse_bool_spec s b : parse_bool s = Some b <-> xsd_boolean s b.
Proof.
  unfold parse_bool, xsd_boolean, s_true, s_false.
  destruct (str_eqb s [116%N; 114%N; 117%N; 101%N]) eqn:A; [apply str_eqb_spec in A; subst s; cbn|].
  { split; [intro H; injection H as <-; auto|]. intros [[_ ->]|[[H _]|[[H _]|[H _]]]]; try discriminate. reflexivity. }
  destruct (str_eqb s [49%N]) eqn:B; [apply str_eqb_spec in B; subst s; cbn|].
  { split; [intro H; injection H as <-; auto|]. intros [[H _]|[[_ ->]|[[H _]|[H _]]]]; try discriminate. reflexivity. }
  destruct (str_eqb s [102%N; 97%N; 108%N; 115%N; 101%N]) eqn:C; [apply str_eqb_spec in C; subst s; cbn|].
  { split; [intro H; injection H as <-; auto|]. intros [[H _]|[[H _]|[[_ ->]|[H _]]]]; try discriminate. reflexivity. }
  destruct (str_eqb s [48%N]) eqn:D; [apply str_eqb_spec in D; subst s; cbn|].
  { split; [intro H; injection H as <-; auto|]. intros [[H _]|[[H _]|[[H _]|[_ ->]]]]; try discriminate. reflexivity. }
  cbn. split; [discriminate|]. intros [[H _]|[[H _]|[[H _]|[H _]]]]; subst s; rewrite str_eqb_refl in *; discriminate.
Qed.

(** ** printing integers *)
Lemma show_fuel_acc f : forall z acc, show_fuel f z acc = show_fuel f z [] ++ acc.
Proof.
  induction f as [|f IH]; intros z acc; cbn [show_fuel]; [reflexivity|]. destruct (z <? 10); [reflexivity|].
  rewrite (IH _ (_ :: acc)), (IH _ [_]), <- app_assoc. reflexivity.
Qed.
Lemma show_fuel_more f : forall g z acc, 0 <= z < 2 ^ Z.of_nat f -> (1 <= f <= g)%nat -> show_fuel g z acc = show_fuel f z acc.
Proof.
  induction f as [|f IH]; intros g z acc R G; [lia|]. destruct g as [|g]; [lia|]. cbn [show_fuel].
  destruct (Z.ltb_spec z 10); [reflexivity|]. rewrite Nat2Z.inj_succ, Z.pow_succ_r in R by lia.
  assert (D : z / 10 < 2 ^ Z.of_nat f) by (apply Z.div_lt_upper_bound; lia).
  assert (0 <= z / 10) by (apply Z.div_pos; lia).
  destruct f as [|f]; [cbn in R; lia|]. apply IH; lia.
Qed.
Lemma log2_fuel z : 0 <= z -> 0 <= z < 2 ^ Z.of_nat (Datatypes.S (Z.to_nat (Z.log2 z))).
Proof.
  intro H. split; [exact H|]. rewrite Nat2Z.inj_succ, Z2Nat.id by apply Z.log2_nonneg.
  destruct (Z.eq_dec z 0) as [->|N]; [reflexivity|]. apply Z.log2_spec. lia.
Qed.
Lemma show_small d : 0 <= d < 10 -> show_nat d = [digit d].
Proof. intro H. unfold show_nat. cbn [show_fuel]. destruct (Z.ltb_spec d 10); [|lia]. rewrite Z.mod_small by lia. reflexivity. Qed.
Lemma show_step a d : 0 < a -> 0 <= d < 10 -> show_nat (10 * a + d) = show_nat a ++ [digit d].
Proof.
  intros A D. unfold show_nat at 1. cbn [show_fuel]. destruct (Z.ltb_spec (10 * a + d) 10); [lia|].
  assert (M : (10 * a + d) mod 10 = d) by (rewrite Z.add_comm, Z.mul_comm, Z.mod_add by lia; apply Z.mod_small; lia).
  assert (Q : (10 * a + d) / 10 = a) by (rewrite Z.add_comm, Z.mul_comm, Z.div_add by lia; rewrite Z.div_small by lia; lia).
  rewrite M, Q, show_fuel_acc. f_equal. unfold show_nat. apply show_fuel_more; [apply log2_fuel; lia|]. split; [lia|].
  enough (Z.log2 a + 1 <= Z.log2 (10 * a + d)) by (pose proof (Z.log2_nonneg a); lia).
  pose proof (Z.log2_le_mono (2 * a) (10 * a + d)). rewrite Z.log2_double in H0 by lia. lia.
Qed.
Lemma show_nat_ind (P : Z -> str -> Prop) :
  (forall d, 0 <= d < 10 -> P d [digit d]) ->
  (forall a d s, 0 < a -> 0 <= d < 10 -> P a s -> P (10 * a + d) (s ++ [digit d])) ->
  forall z, 0 <= z -> P z (show_nat z).
Proof.
  intros H0 HS z Hz. generalize Hz. pattern z. apply Z_lt_induction; [|exact Hz]. clear z Hz. intros z IH Hz.
  destruct (Z.lt_ge_cases z 10).
  - rewrite show_small by lia. apply H0. lia.
  - assert (Dm : z = 10 * (z / 10) + z mod 10) by (apply Z.div_mod; lia).
    assert (0 <= z mod 10 < 10) by (apply Z.mod_pos_bound; lia).
    assert (0 < z / 10) by (apply Z.div_str_pos; lia).
    rewrite Dm. rewrite show_step by lia. apply HS; try lia. apply IH; lia.
Qed.
Lemma digit_is d : 0 <= d < 10 -> is_digit (digit d) /\ Z.of_N (digit d) - 48 = d.
Proof. intro H. unfold is_digit, digit. split; [lia|]. rewrite Z2N.id by lia. lia. Qed.
Lemma show_nat_lexical z : 0 <= z -> unsigned_lexical (show_nat z) z.
Proof.
  revert z. apply (show_nat_ind (fun z s => unsigned_lexical s z)).
  - intros d D. destruct (digit_is d D) as [I V]. split; [discriminate|]. split; [auto|]. cbn [digits_value fold_left]. lia.
  - intros a d s A D (N & F & V). destruct (digit_is d D) as [I W]. split; [destruct s; discriminate|]. split; [apply Forall_app; auto|].
    unfold digits_value in *. rewrite fold_left_app. cbn [fold_left]. lia.
Qed.
Lemma show_Z_lexical z : int_lexical (show_Z z) z.
Proof.
  unfold show_Z. destruct (Z.ltb_spec z 0).
  - replace z with (- - z) at 2 by lia. apply il_minus, show_nat_lexical. lia.
  - apply il_none, show_nat_lexical. lia.
Qed.
Lemma show_nat_head z : 0 <= z -> exists c r, show_nat z = c :: r /\ is_digit c /\ (c = 48%N -> r = []) /\ (z <> 0 -> c <> 48%N).
Proof.
  revert z. apply (show_nat_ind (fun z s => exists c r, s = c :: r /\ is_digit c /\ (c = 48%N -> r = []) /\ (z <> 0 -> c <> 48%N))).
  - intros d D. destruct (digit_is d D) as [I V]. exists (digit d), []. repeat split; auto; try apply I. intros N E. rewrite E in V. cbn in V. lia.
  - intros a d s A D (c & r & -> & I & Z & NZ). exists c, (r ++ [digit d]). split; [reflexivity|]. split; [exact I|]. assert (c <> 48%N) by (apply NZ; lia). split; [contradiction|auto].
Qed.
Lemma canonical_digit c r : is_digit c -> (c = 48%N -> r = []) -> canonical_int (c :: r).
Proof.
  unfold is_digit. intros I Z. destruct (N.eq_dec c 48) as [->|E]; [rewrite Z by reflexivity; reflexivity|].
  assert (c = 49 \/ c = 50 \/ c = 51 \/ c = 52 \/ c = 53 \/ c = 54 \/ c = 55 \/ c = 56 \/ c = 57)%N as C by lia.
  destruct C as [->|[->|[->|[->|[->|[->|[->|[->| ->]]]]]]]]; exact Logic.I.
Qed.
Lemma show_Z_canonical z : canonical_int (show_Z z).
Proof.
  unfold show_Z. destruct (Z.ltb_spec z 0).
  - destruct (show_nat_head (- z)) as (c & r & -> & I & Z0 & NZ); [lia|]. unfold minus. cbn [canonical_int]. apply NZ. lia.
  - destruct (show_nat_head z) as (c & r & -> & I & Z0 & NZ); [lia|]. apply canonical_digit; auto.
Qed.
Lemma fold_pos s : forall acc, Forall is_digit s -> 0 < acc -> 0 < fold_left (fun a c => 10 * a + (Z.of_N c - 48)) s acc.
Proof.
  induction s as [|c s IH]; intros acc F A; cbn [fold_left]; [exact A|]. inversion F as [|? ? D F']; subst. unfold is_digit in D. apply IH; [exact F'|lia].
Qed.
Lemma unsigned_canonical c r z : unsigned_lexical (c :: r) z -> (c = 48%N -> r = []) -> c :: r = show_nat z.
Proof.
  intros (_ & F & V) Z0. inversion F as [|? ? I F']; subst. revert Z0. unfold digits_value.
  induction r as [|d r IH] using rev_ind; intro Z0.
  - cbn [fold_left]. unfold is_digit in I. rewrite show_small by lia. f_equal. unfold digit. lia.
  - apply Forall_app in F' as [F1 F2]. inversion F2 as [|? ? Id _]; subst. unfold is_digit in I, Id.
    assert (c <> 48%N) by (intro E; specialize (Z0 E); destruct r; discriminate).
    rewrite app_comm_cons, fold_left_app.
    assert (P : 0 < fold_left (fun a c => 10 * a + (Z.of_N c - 48)) (c :: r) 0) by (cbn [fold_left]; apply fold_pos; [exact F1|lia]).
    assert (E : c :: r = show_nat (fold_left (fun a c => 10 * a + (Z.of_N c - 48)) (c :: r) 0)).
    { apply IH; [constructor; [unfold is_digit; lia|exact F1]|exact F1|contradiction]. }
    remember (fold_left (fun a c => 10 * a + (Z.of_N c - 48)) (c :: r) 0) as v eqn:Ev. cbn [fold_left]. rewrite show_step by lia.
    rewrite <- E. cbn [app]. f_equal. f_equal. f_equal. unfold digit. lia.
Qed.
Lemma canonical_show s z : int_lexical s z -> canonical_int s -> s = show_Z z.
Proof.
  intros I C. unfold show_Z. inversion I as [s1 z1 U|s1 z1 U|s1 z1 U]; subst.
  - pose proof (unsigned_nonneg _ _ U). destruct (Z.ltb_spec z 0); [lia|]. destruct s as [|c r]; [destruct U as (N & _); contradiction|].
    apply unsigned_canonical; [exact U|]. intros ->. exact C.
  - destruct C.
  - pose proof (unsigned_nonneg _ _ U). destruct s1 as [|c r]; [destruct U as (N & _); contradiction|]. cbn [canonical_int] in C.
    assert (c <> 48%N) as Nz by (destruct c as [|p]; [discriminate|exact C]).
    destruct U as (NE & F & V). inversion F as [|? ? Ic F']; subst. unfold is_digit in Ic.
    assert (0 < digits_value (c :: r)) by (unfold digits_value; cbn [fold_left]; apply fold_pos; [exact F'|lia]).
    destruct (Z.ltb_spec (- digits_value (c :: r)) 0); [|lia]. rewrite Z.opp_involutive. f_equal.
    apply unsigned_canonical; [|contradiction]. split; [exact NE|]. split; [exact F|reflexivity].
Qed.
Lemma parse_show k z : imin k <= z <= imax k -> parse_int k (show_Z z) = Some z.
Proof.
  intro R. apply parse_int_complete.
  - split; [apply show_Z_lexical|]. destruct k; cbn [imin imax int_value] in *; lia.
  - destruct k; cbn [imin imax fits] in *; lia.
  - intros S (r & E). assert (0 <= z) by (destruct k; try contradiction; cbn [imin] in R; lia).
    unfold show_Z in E. destruct (Z.ltb_spec z 0); [lia|]. destruct (show_nat_head z) as (c & q & E' & I & _); [lia|].
    rewrite E' in E. injection E as -> _. unfold is_digit in I. lia.
Qed.

(** ** terms *)
Section Terms.
  Context (L : lib).

  Lemma check_int k s : check_datatype L s (DInt k) = match parse_int k s with Some z => LNum (NInt k z) | None => LWrong s (DInt k) end.
  Proof. reflexivity. Qed.
  Lemma check_again s d : into_checked L (check_datatype L s d) = check_datatype L s d.
  Proof.
    unfold check_datatype. destruct d as [k| | | | | | | | |i]; cbn [into_checked check_datatype]; try reflexivity.
    - destruct (parse_int k s); reflexivity.
    - destruct (parse_decimal L s); reflexivity.
    - destruct (bad_float s); [reflexivity|]. destruct (parse_f64 L s); reflexivity.
    - destruct (bad_float s); [reflexivity|]. destruct (parse_f32 L s); reflexivity.
    - destruct (parse_bool s); reflexivity.
    - destruct (parse_date L s); reflexivity.
  Qed.
  (** a literal read from data, once checked *)
  Lemma of_term_checked s d l : of_term L (OTyped s d) = Some l -> into_checked L l = check_datatype L s d.
  Proof.
    cbn [of_term]. intro H.
    assert (K : Some (check_datatype L s d) = Some l -> into_checked L l = check_datatype L s d) by (intro E; injection E as <-; apply check_again).
    assert (W : match check_datatype L s d with LWrong _ _ => Some (LWrong s d) | _ => Some (LTyped s d) end = Some l ->
      (match check_datatype L s d with LWrong s' d' => s' = s /\ d' = d | _ => True end) -> into_checked L l = check_datatype L s d).
    { destruct (check_datatype L s d) eqn:E; intros X Y; injection X as <-; cbn [into_checked]; try exact E. destruct Y as [-> ->]. reflexivity. }
    destruct d as [[]| | | | | | | | |i]; try (apply K, H); apply (W H); unfold check_datatype.
    - destruct (parse_int KInteger s); auto.
    - destruct (parse_decimal L s); auto.
    - destruct (bad_float s); auto. destruct (parse_f64 L s); auto.
    - destruct (bad_float s); auto. destruct (parse_f32 L s); auto.
  Qed.
  Lemma datatype_checked s d : datatype (check_datatype L s d) = d.
  Proof.
    destruct d as [k| | | | | | | | |i]; cbn [check_datatype]; try reflexivity.
    - destruct (parse_int k s); reflexivity.
    - destruct (parse_decimal L s); reflexivity.
    - destruct (bad_float s); [reflexivity|]. destruct (parse_f64 L s); reflexivity.
    - destruct (bad_float s); [reflexivity|]. destruct (parse_f32 L s); reflexivity.
    - destruct (parse_bool s); reflexivity.
    - destruct (parse_date L s); reflexivity.
  Qed.
  Definition wrong (l : lit) : bool := match l with LWrong _ _ => true | _ => false end.
  Lemma datatype_ok_lit l d : datatype_ok L (OLit l) d = negb (wrong (into_checked L l)) && dtype_eqb (datatype (into_checked L l)) d.
  Proof.
    unfold datatype_ok, checked.
    assert (I : into_checked L (into_checked L l) = into_checked L l) by (destruct l; try reflexivity; apply check_again).
    rewrite I. destruct (into_checked L l); reflexivity.
  Qed.
  Lemma datatype_ok_typed s d d' l : of_term L (OTyped s d) = Some l ->
    datatype_ok L (OLit l) d' = negb (wrong (check_datatype L s d)) && dtype_eqb d d'.
  Proof. intro H. rewrite datatype_ok_lit, (of_term_checked s d l H), datatype_checked. reflexivity. Qed.
  Lemma of_simple s l : of_term L (OSimple s) = Some l -> l = LString s None.
  Proof. cbn. intro H. injection H as <-. reflexivity. Qed.
  Lemma of_lang s t l : of_term L (OLang s t) = Some l -> exists g, lang_new L t = Some g /\ l = LString s (Some g).
  Proof. cbn. destruct (lang_new L t) as [g|]; [|discriminate]. intro H. injection H as <-. eauto. Qed.
  Lemma int_not_wrong k s : wrong (check_datatype L s (DInt k)) = false <-> exists z, parse_int k s = Some z.
  Proof. rewrite check_int. destruct (parse_int k s) as [z|]; cbn; [split; eauto|split; [discriminate|intros [z H]; discriminate]]. Qed.

  (** ** the text that is kept *)
  Lemma keeps_lexical t l : of_term L t = Some l -> keeps (term_datatype t) -> lexical_form L l = term_lexical t.
  Proof.
    destruct t as [s|s g|s d]; intros H K.
    - apply of_simple in H. subst. reflexivity.
    - apply of_lang in H as (x & _ & ->). reflexivity.
    - cbn [of_term] in H. cbn [term_datatype keeps] in K. cbn [term_lexical].
      destruct d as [[]| | | | | | | | |i]; try contradiction; try (injection H as <-; reflexivity);
        destruct (check_datatype L s _); injection H as <-; reflexivity.
  Qed.
  Lemma int_lexical_form k s z l : k <> KInteger -> parse_int k s = Some z -> of_term L (OTyped s (DInt k)) = Some l ->
    l = LNum (NInt k z) /\ lexical_form L l = show_Z z.
  Proof.
    intros N P H. assert (E : Some (check_datatype L s (DInt k)) = Some l) by (destruct k; try contradiction; exact H).
    rewrite check_int, P in E. injection E as <-. split; reflexivity.
  Qed.
  Lemma str_len_ascii s : ascii s -> str_len s = length s.
  Proof.
    induction 1 as [|c s A _ IH]; cbn [str_len length]; [reflexivity|]. unfold utf8_len. destruct (N.ltb_spec c 128); lia.
  Qed.
  Lemma to_term_keeps t l : of_term L t = Some l -> proper t -> keeps (term_datatype t) ->
    match t with OLang _ g => lang_new L g = Some g | _ => True end -> to_term L l = t.
  Proof.
    destruct t as [s|s g|s d]; intros H P K G.
    - apply of_simple in H. subst. reflexivity.
    - apply of_lang in H as (x & E & ->). rewrite E in G. injection G as ->. reflexivity.
    - cbn [of_term] in H. cbn [term_datatype keeps proper] in *.
      destruct d as [[]| | | | | | | | |i]; try contradiction; try (injection H as <-; reflexivity);
        destruct (check_datatype L s _); injection H as <-; reflexivity.
  Qed.

  (** ** orders *)
  Lemma dec_cmp_opp a b : dec_cmp b a = CompOpp (dec_cmp a b).
  Proof. unfold dec_cmp. apply Z.compare_antisym. Qed.
  Lemma dec_cmp_trans a b c : dec_cmp a b = Lt -> dec_cmp b c = Lt -> dec_cmp a c = Lt.
  Proof. rewrite <- !qcmp_dec, <- !Qlt_alt. apply Qlt_trans. Qed.
  Lemma num_cmp_opp a b : partial_cmp (f64_dec L) (f32_dec L) b a = opposite (partial_cmp (f64_dec L) (f32_dec L) a b).
  Proof.
    unfold partial_cmp. destruct (to_decimal (f64_dec L) (f32_dec L) a), (to_decimal (f64_dec L) (f32_dec L) b); try reflexivity. cbn. f_equal. apply dec_cmp_opp.
  Qed.
  Lemma num_cmp_trans a b c : partial_cmp (f64_dec L) (f32_dec L) a b = Some Lt -> partial_cmp (f64_dec L) (f32_dec L) b c = Some Lt ->
    partial_cmp (f64_dec L) (f32_dec L) a c = Some Lt.
  Proof.
    unfold partial_cmp. destruct (to_decimal (f64_dec L) (f32_dec L) a) as [x|], (to_decimal (f64_dec L) (f32_dec L) b) as [y|], (to_decimal (f64_dec L) (f32_dec L) c) as [z|]; try discriminate.
    intros H K. injection H as H. injection K as K. f_equal. eapply dec_cmp_trans; eassumption.
  Qed.
  Definition number (l : lit) : option num := match l with LNum n => Some n | _ => None end.
  Lemma typed_cmp s d s' d' : lit_cmp L (LTyped s d) (LTyped s' d') =
    match number (check_datatype L s d), number (check_datatype L s' d') with
    | Some n, Some n' => partial_cmp (f64_dec L) (f32_dec L) n n'
    | _, _ => if dtype_eqb d d' then Some (str_cmp s s') else None
    end.
  Proof. cbn [lit_cmp]. destruct (check_datatype L s d), (check_datatype L s' d'); reflexivity. Qed.
  Lemma lit_cmp_opp a b : dates_antisymmetric L -> lit_cmp L b a = opposite (lit_cmp L a b).
  Proof.
    intro D. destruct a as [s g|s d|n|t|x|s d], b as [s' g'|s' d'|n'|t'|x'|s' d']; try reflexivity.
    - cbn. f_equal. apply str_cmp_opp.
    - rewrite !typed_cmp. destruct (number (check_datatype L s d)), (number (check_datatype L s' d'));
        try (apply num_cmp_opp); rewrite (dtype_eqb_sym d' d); (destruct (dtype_eqb d d'); [cbn; f_equal; apply str_cmp_opp|reflexivity]).
    - apply num_cmp_opp.
    - apply D.
    - destruct x, x'; reflexivity.
  Qed.
  (** typed literals that are numbers, if they are of a numeric datatype *)
  Definition settled (l : lit) : Prop :=
    match l with
    | LTyped s d => match d with
                    | DXsdInt | DString | DLangString | DOther _ => True
                    | _ => number (check_datatype L s d) <> None
                    end
    | _ => True
    end.
  Lemma of_term_settled t l : of_term L t = Some l -> settled l.
  Proof.
    destruct t as [s|s g|s d]; intro H.
    - apply of_simple in H. subst. exact Logic.I.
    - apply of_lang in H as (x & _ & ->). exact Logic.I.
    - cbn [of_term] in H.
      destruct d as [[]| | | | | | | | |i]; try (injection H as <-; exact Logic.I);
        try (rewrite check_int in H; match type of H with context [parse_int ?k s] => destruct (parse_int k s) end; injection H as <-; exact Logic.I).
      + rewrite check_int in H. destruct (parse_int KInteger s) eqn:E; injection H as <-; cbn [settled]; [|exact Logic.I]. rewrite check_int, E. discriminate.
      + cbn [check_datatype] in H. destruct (parse_decimal L s) eqn:E; injection H as <-; cbn [settled]; [|exact Logic.I]. cbn [check_datatype]. rewrite E. discriminate.
      + cbn [check_datatype] in H. destruct (bad_float s) eqn:B; [injection H as <-; exact Logic.I|].
        destruct (parse_f64 L s) eqn:E; injection H as <-; cbn [settled]; [|exact Logic.I]. cbn [check_datatype]. rewrite B, E. discriminate.
      + cbn [check_datatype] in H. destruct (bad_float s) eqn:B; [injection H as <-; exact Logic.I|].
        destruct (parse_f32 L s) eqn:E; injection H as <-; cbn [settled]; [|exact Logic.I]. cbn [check_datatype]. rewrite B, E. discriminate.
      + cbn [check_datatype] in H. injection H as <-. destruct (parse_bool s); exact Logic.I.
      + cbn [check_datatype] in H. injection H as <-. destruct (parse_date L s); exact Logic.I.
  Qed.
  Lemma settled_number s s' d : settled (LTyped s d) -> settled (LTyped s' d) ->
    (number (check_datatype L s d) = None <-> number (check_datatype L s' d) = None).
  Proof. destruct d as [k| | | | | | | | |i]; cbn [settled]; intros A B; try tauto; cbn; split; reflexivity. Qed.
  Lemma typed_lt s d s' d' : settled (LTyped s d) -> settled (LTyped s' d') -> lit_cmp L (LTyped s d) (LTyped s' d') = Some Lt ->
    (exists n n', number (check_datatype L s d) = Some n /\ number (check_datatype L s' d') = Some n' /\
                  partial_cmp (f64_dec L) (f32_dec L) n n' = Some Lt) \/
    (number (check_datatype L s d) = None /\ number (check_datatype L s' d') = None /\ d = d' /\ str_cmp s s' = Lt).
  Proof.
    intros A B. rewrite typed_cmp.
    destruct (number (check_datatype L s d)) as [n|] eqn:E, (number (check_datatype L s' d')) as [n'|] eqn:E'; intro H.
    - left. eauto 6.
    - destruct (dtype_eqb d d') eqn:D; [|discriminate]. apply dtype_eqb_spec in D. subst d'. apply (settled_number s s' d A B) in E'. congruence.
    - destruct (dtype_eqb d d') eqn:D; [|discriminate]. apply dtype_eqb_spec in D. subst d'. apply (settled_number s s' d A B) in E. congruence.
    - destruct (dtype_eqb d d') eqn:D; [|discriminate]. apply dtype_eqb_spec in D. injection H as H. right. auto.
  Qed.
  Lemma lit_cmp_trans a b c : settled a -> settled b -> settled c ->
    (forall x y z, cmp_date L x y = Some Lt -> cmp_date L y z = Some Lt -> cmp_date L x z = Some Lt) ->
    lit_cmp L a b = Some Lt -> lit_cmp L b c = Some Lt -> lit_cmp L a c = Some Lt.
  Proof.
    intros SA SB SC D H K.
    destruct a as [s g|s d|n|t|x|s d], b as [s' g'|s' d'|n'|t'|x'|s' d']; try discriminate H;
      destruct c as [s'' g''|s'' d''|n''|t''|x''|s'' d'']; try discriminate K.
    - cbn in *. injection H as H. injection K as K. f_equal. eapply str_cmp_trans; eassumption.
    - apply typed_lt in H; [|assumption|assumption]. apply typed_lt in K; [|assumption|assumption]. rewrite typed_cmp.
      destruct H as [(n & n' & E & E' & H)|(E & E' & <- & H)], K as [(m & m' & F & F' & K)|(F & F' & <- & K)]; try congruence.
      + rewrite E, F'. rewrite E' in F. injection F as <-. eapply num_cmp_trans; eassumption.
      + rewrite E, dtype_eqb_refl. f_equal. eapply str_cmp_trans; eassumption.
    - cbn in *. eapply num_cmp_trans; eassumption.
    - cbn in *. eapply D; eassumption.
    - cbn in *. destruct x, x', x''; try discriminate; reflexivity.
  Qed.
  Lemma match_cmp a b : (forall x y, eqb_date L x y = true -> cmp_date L x y <> Some Lt /\ cmp_date L x y <> Some Gt) ->
    match_literal L a b = true -> lit_cmp L a b <> Some Lt /\ lit_cmp L a b <> Some Gt.
  Proof.
    intros D M. destruct a as [s g|s d|n|t|x|s d], b as [s' g'|s' d'|n'|t'|x'|s' d']; try discriminate M; cbn [match_literal] in M.
    - apply andb_true_iff in M as [M _]. apply str_eqb_spec in M. subst. cbn. rewrite (proj2 (str_cmp_Eq s' s') eq_refl). split; discriminate.
    - apply andb_true_iff in M as [M N]. apply str_eqb_spec in M. apply dtype_eqb_spec in N. subst. rewrite typed_cmp.
      assert (R : forall n, partial_cmp (f64_dec L) (f32_dec L) n n <> Some Lt /\ partial_cmp (f64_dec L) (f32_dec L) n n <> Some Gt).
      { intro n. unfold partial_cmp. destruct (to_decimal (f64_dec L) (f32_dec L) n) as [d0|]; [|split; discriminate]. unfold dec_cmp. rewrite Z.compare_refl. split; discriminate. }
      destruct (number (check_datatype L s' d')); [apply R|]. rewrite dtype_eqb_refl, (proj2 (str_cmp_Eq s' s') eq_refl). split; discriminate.
    - cbn [lit_cmp]. destruct (to_decimal (f64_dec L) (f32_dec L) n) eqn:T.
      + assert (X : partial_cmp (f64_dec L) (f32_dec L) n n' = Some Eq) by (apply partial_cmp_Eq; split; [exact M|rewrite T; discriminate]). rewrite X. split; discriminate.
      + unfold partial_cmp. rewrite T. split; discriminate.
    - apply D, M.
    - cbn. destruct x, x'; try discriminate; split; discriminate.
    - cbn. split; discriminate.
  Qed.
End Terms.

(** ** bounds *)
Lemma digits_value_lt f : Forall is_digit f -> 0 <= digits_value f < 10 ^ Z.of_nat (length f).
Proof.
  induction f as [|c f IH] using rev_ind; intro F; [cbn; lia|]. apply Forall_app in F as [F C]. inversion C as [|? ? D _]; subst. unfold is_digit in D.
  unfold digits_value in *. rewrite fold_left_app, app_length. cbn [fold_left length]. specialize (IH F).
  rewrite Nat2Z.inj_add, Z.pow_add_r by lia. change (10 ^ Z.of_nat 1) with 10. lia.
Qed.
Lemma to_pos_pow n : Z.pos (Z.to_pos (10 ^ Z.of_nat n)) = 10 ^ Z.of_nat n.
Proof. apply Z2Pos.id, Z.pow_pos_nonneg; lia. Qed.
Lemma parts_value w f d : decimal_from_parts w f = Some d -> 0 <= f ->
  (dec_value d == (if w <? 0 then - (inject_Z (- w) + Qmake f (Z.to_pos (10 ^ Z.of_nat (ndigits f))))
                   else inject_Z w + Qmake f (Z.to_pos (10 ^ Z.of_nat (ndigits f)))))%Q.
Proof.
  unfold decimal_from_parts. destruct (_ <=? max_mant); [|discriminate]. intros H F. injection H as <-.
  unfold dec_value. cbn [mant scale]. destruct (Z.ltb_spec w 0).
  - rewrite Z.abs_neq by lia. unfold Qeq, Qplus, inject_Z, Qopp. cbn [Qnum Qden]. rewrite !Pos.mul_1_l. rewrite !to_pos_pow. unfold pow10. ring.
  - rewrite Z.abs_eq by lia. unfold Qeq, Qplus, inject_Z. cbn [Qnum Qden]. rewrite !Pos.mul_1_l. rewrite !to_pos_pow. unfold pow10. ring.
Qed.

(** ** infinity *)
Lemma lower_any_case c x : (97 <= c <= 122 \/ c < 65)%N -> (lower x = c <-> any_case c x).
Proof.
  intro C. unfold lower, any_case. destruct (N.leb_spec 65 x), (N.leb_spec x 90); cbn [andb]; lia.
Qed.
Lemma ignore_case_spelled w : Forall (fun c => 97 <= c <= 122 \/ c < 65)%N w -> forall s, map lower s = w <-> spelled w s.
Proof.
  unfold spelled. induction 1 as [|c w C _ IH]; intros [|x s]; cbn [map]; split; intro H; try discriminate; try constructor; try (inversion H; fail).
  - injection H as H1 H2. apply lower_any_case; assumption.
  - injection H as H1 H2. apply IH, H2.
  - inversion H as [|? ? ? ? A B]; subst. apply (lower_any_case c x C) in A. apply IH in B. congruence.
Qed.
Lemma bad_float_spec s : bad_float s = true <-> plus_infinity s.
Proof.
  unfold bad_float, plus_infinity, eq_ignore_case. rewrite orb_true_iff, !str_eqb_spec.
  rewrite <- !ignore_case_spelled; [reflexivity| |]; repeat constructor; lia.
Qed.
