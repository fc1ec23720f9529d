(** Lemmas about cardinalities. *)

Require Import List Arith Bool Lia ZArith.
From Verif Require Import RbeModel RbeSpec RbeInterval CardModel.

(** ** C08 *)

Lemma card_contains_spec c n : card_contains c n = true <-> in_card n c.
Proof. unfold card_contains, in_card. rewrite andb_true_iff, max_ge_spec, Nat.leb_le. tauto. Qed.

Lemma card_nullable_spec c : le_max (cmin c) (cmax c) -> (card_nullable c = true <-> in_card 0 c).
Proof.
  unfold card_nullable, in_card. rewrite Nat.eqb_eq. intro H. split.
  - intro E. split; [lia|]. destruct (cmax c); simpl; [exact I|lia].
  - lia.
Qed.

Lemma card_minus_spec c n k : le_max n (cmax c) -> (in_card k (card_minus c n) <-> in_card (k + n) c).
Proof.
  unfold in_card, card_minus. cbn [cmin cmax]. intro H. rewrite Nat.max_0_r.
  destruct (cmax c) as [|m]; cbn [max_minus le_max] in *; [lia|].
  destruct m as [|m]; cbn [le_max]; [lia|]. destruct (Nat.ltb_spec n (S m)); lia.
Qed.

Lemma max_le_spec a b : max_le a b <->
  match a, b with _, Unbounded => True | Unbounded, IntMax _ => False | IntMax x, IntMax y => x <= y end.
Proof.
  unfold max_le. destruct a as [|x], b as [|y]; simpl.
  - tauto.
  - split; [|tauto]. intro H. specialize (H (S y) I). lia.
  - tauto.
  - split; [intro H; apply H; lia|intros; lia].
Qed.

Lemma max_gt_spec a b : max_gt a b = true <-> max_le b a /\ ~ max_le a b.
Proof. rewrite !max_le_spec. destruct a, b; simpl; try (split; [discriminate|tauto]); [split; auto|rewrite Nat.ltb_lt; lia]. Qed.

Lemma max_min_spec a b n : le_max n (max_min a b) <-> le_max n a /\ le_max n b.
Proof. destruct a, b; simpl; try tauto. lia. Qed.

Lemma max_max_spec a b n : le_max n (max_max a b) <-> le_max n a \/ le_max n b.
Proof. destruct a, b; simpl; try tauto. lia. Qed.

Lemma max_plus_spec a b n : le_max n (max_plus a b) <->
  exists i j, n = i + j /\ le_max i a /\ le_max j b.
Proof.
  destruct a as [|x], b as [|y]; simpl.
  - split; [exists n, 0; repeat split; lia|tauto].
  - split; [|tauto]. intros _. exists n, 0. repeat split; lia.
  - split; [|tauto]. intros _. exists 0, n. repeat split; lia.
  - split; [|intros (i & j & -> & H & K); lia]. intro H. exists (Nat.min n x), (n - Nat.min n x). repeat split; lia.
Qed.

Lemma is_checks c :
  (is_0_0 c = true <-> cmin c = 0 /\ cmax c = IntMax 0) /\
  (is_1_1 c = true <-> cmin c = 1 /\ cmax c = IntMax 1) /\
  (is_star c = true <-> cmin c = 0 /\ cmax c = Unbounded) /\
  (is_plus c = true <-> cmin c = 1 /\ cmax c = Unbounded).
Proof.
  assert (E : forall m m', max_eqb m m' = true <-> m = m').
  { intros [|x] [|y]; simpl; try (split; [discriminate|congruence]); [tauto|].
    rewrite Nat.eqb_eq. split; congruence. }
  unfold is_0_0, is_1_1, is_star, is_plus. rewrite !andb_true_iff, !Nat.eqb_eq, !E. tauto.
Qed.

(** ** C09 *)
Local Open Scope Z_scope.

Lemma max_json_round_trip m : (forall n, m = ZIntMax n -> 0 <= n < 2 ^ 63) ->
  max_from_json (max_serialize m) = ROk m.
Proof.
  intro H. destruct m as [|n]; [reflexivity|]. specialize (H n eq_refl). change (2 ^ 63) with 9223372036854775808 in H.
  unfold max_from_json, json_visit, max_serialize, as_i64.
  destruct (Z.ltb_spec n 9223372036854775808); [|lia]. destruct (Z.ltb_spec n 0); [lia|reflexivity].
Qed.

Lemma max_signed_round_trip m : (forall n, m = ZIntMax n -> 0 < n < 2 ^ 63) ->
  max_visit_i64 (max_serialize m) = ROk m.
Proof.
  intro H. destruct m as [|n]; [reflexivity|]. specialize (H n eq_refl). change (2 ^ 63) with 9223372036854775808 in H.
  unfold max_visit_i64, max_from_i64, max_serialize, as_i64, as_usize.
  destruct (Z.ltb_spec n 9223372036854775808); [|lia]. destruct (Z.ltb_spec n (-1)); [lia|].
  destruct (Z.eqb_spec n (-1)); [lia|]. destruct (Z.ltb_spec 0 n); [|lia]. destruct (Z.ltb_spec n 0); [lia|reflexivity].
Qed.

Lemma min_round_trip n : 0 <= n < 2 ^ 64 -> min_from_json (min_serialize n) = ROk n.
Proof. intro H. unfold min_from_json, json_visit, min_serialize. destruct (Z.ltb_spec n 0); [lia|reflexivity]. Qed.

(** a number above [2^63 - 1] is written as a negative number: it reads back as the
    unbounded maximum, or is rejected *)
Lemma max_json_overflow n : 2 ^ 63 <= n < 2 ^ 64 ->
  max_from_json (max_serialize (ZIntMax n)) = if n =? 2 ^ 64 - 1 then ROk ZUnbounded else RErr.
Proof.
  change (2 ^ 63) with 9223372036854775808. change (2 ^ 64) with 18446744073709551616. intro H.
  unfold max_from_json, json_visit, max_serialize, max_visit_i64, as_i64.
  destruct (Z.ltb_spec n 9223372036854775808); [lia|].
  destruct (Z.ltb_spec (n - 18446744073709551616) 0); [|lia].
  destruct (Z.eqb_spec n (18446744073709551616 - 1)) as [->|N]; [reflexivity|].
  destruct (Z.ltb_spec (n - 18446744073709551616) (-1)); [reflexivity|lia].
Qed.
