(* Lemmas about the generator: draws, numbers of values, values. *)
From Coq Require Import List String Ascii Bool ZArith QArith Permutation Decimal DecimalString DecimalZ DecimalPos Lia.
Import ListNotations.
From Verif Require Import SjModel CoModel CoSpec SqModel SqSpec GenModel GenSpec.
Open Scope string_scope.
Open Scope Z_scope.

(* ------------------------------------------------------------------ *)
(* Results that always hold                                             *)

Definition always {A} (P : A -> Prop) (m : M A) : Prop := forall n, exists a n', m n = Ok (a, n') /\ P a.

Lemma always_ret {A} (P : A -> Prop) a : P a -> always P (ret a).
Proof. intros H n. exists a, n. auto. Qed.
Lemma always_bind {A B} (P : A -> Prop) (Q : B -> Prop) m f : always P m -> (forall a, P a -> always Q (f a)) -> always Q (bind m f).
Proof. intros H K n. destruct (H n) as (a & n' & E & Pa). unfold bind. rewrite E. apply K, Pa. Qed.
Lemma always_weaken {A} (P Q : A -> Prop) m : (forall a, P a -> Q a) -> always P m -> always Q m.
Proof. intros H K n. destruct (K n) as (a & n' & E & Pa). exists a, n'. auto. Qed.
Lemma always_each {A B} (P : A -> list B -> Prop) f (l : list A) : (forall a, In a l -> always (P a) (f a)) ->
  always (fun r => exists rs, r = List.concat rs /\ Forall2 P l rs) (each l f).
Proof.
  induction l as [|a l IH]; intro H; cbn [each].
  - apply always_ret. exists []. auto.
  - eapply always_bind; [apply H; left; reflexivity|]. intros x Px. eapply always_bind; [apply IH; intros; apply H; right; assumption|].
    intros y (rs & -> & F). apply always_ret. exists (x :: rs). auto.
Qed.

Section Draws.
Variable rand : nat -> N.
Lemma gen_range_in lo hi : lo <= hi -> always (fun z => lo <= z <= hi) (gen_range rand lo hi).
Proof.
  intro H. unfold gen_range. rewrite (proj2 (Z.leb_le _ _) H). intro n. unfold bind, draw, ret. eexists _, _. split; [reflexivity|].
  pose proof (Z.mod_pos_bound (Z.of_N (rand n)) (hi - lo + 1) ltac:(lia)). lia.
Qed.
Lemma gen_range_panics lo hi n : hi < lo -> gen_range rand lo hi n = Panic.
Proof. intro H. unfold gen_range. rewrite (proj2 (Z.leb_gt _ _) H). reflexivity. Qed.
Lemma unit_always : always (fun q => (0 <= q)%Q) (unit_interval rand).
Proof.
  intro n. unfold unit_interval, bind, draw, ret. eexists _, _. split; [reflexivity|]. unfold Qle. cbn [Qnum Qden]. rewrite Z.mul_0_l, Z.mul_1_r.
  apply Z.mod_pos_bound. reflexivity.
Qed.
Lemma shuffle_always {A} (l : list A) : always (Permutation l) (shuffle rand l).
Proof.
  induction l as [|a l IH]; cbn [shuffle]; [apply always_ret; constructor|].
  eapply always_bind; [exact IH|]. intros l' P. eapply always_bind; [apply gen_range_in; lia|]. intros i Hi. apply always_ret.
  rewrite P. rewrite <- (firstn_skipn (Z.to_nat i) l') at 1. apply Permutation_middle.
Qed.

Variable checks : bool.
Lemma choose_between st mn mx idx : 0 <= mn <= mx -> mx < 2 ^ 64 - 1 -> 0 <= idx -> always (fun k => mn <= k <= mx) (choose checks rand st mn mx idx).
Proof.
  intros H1 H2 H3. unfold choose. destruct st; try (apply always_ret; lia).
  - destruct (Z.eqb_spec mn mx); [apply always_ret; lia|]. apply gen_range_in; lia.
  - destruct (Z.eqb_spec mn mx); [apply always_ret; lia|]. unfold sub. rewrite (proj2 (Z.leb_le mn mx)) by lia.
    eapply always_bind; [apply always_ret with (P := eq (mx - mn)); reflexivity|]. intros d <-.
    unfold add at 1. rewrite (proj2 (Z.ltb_lt _ _)) by lia. eapply always_bind; [apply always_ret with (P := eq (mx - mn + 1)); reflexivity|]. intros d <-.
    unfold rem. destruct (Z.eqb_spec (mx - mn + 1) 0); [lia|]. eapply always_bind; [apply always_ret with (P := eq (idx mod (mx - mn + 1))); reflexivity|]. intros r <-.
    pose proof (Z.mod_pos_bound idx (mx - mn + 1) ltac:(lia)). unfold add. rewrite (proj2 (Z.ltb_lt _ _)) by lia. apply always_ret. lia.
Qed.

Lemma as_usize_small z : 0 <= z < 2 ^ 64 -> as_usize z = z.
Proof. intro H. unfold as_usize. apply Z.mod_small. lia. Qed.

Lemma value_count_between st mn mx idx : can_be_met mn mx -> 0 <= idx ->
  always (fun k => 0 <= k /\ between mn mx k) (value_count checks rand st false mn mx idx).
Proof.
  intros H I. unfold value_count, can_be_met, between in *. set (m := match mn with Some m => m | None => 1 end) in *. clearbody m. clear mn.
  destruct mx as [k|].
  - destruct H as [[-> H]|H].
    + change (-1 =? -1) with true. cbn iota. eapply always_weaken; [|apply choose_between; lia]. cbn. intros a A. lia.
    + destruct (Z.eqb_spec k (-1)); [lia|]. rewrite as_usize_small by lia. eapply always_weaken; [|apply choose_between; lia]. cbn. intros a A. lia.
  - eapply always_weaken; [|apply choose_between; lia]. cbn. intros a A. lia.
Qed.
Lemma value_count_ignored st mn mx idx : (forall k, mx = Some k -> -1 <= k < 2 ^ 31) -> 0 <= idx ->
  always (fun k => 0 <= k /\ between (Some 0) mx k) (value_count checks rand st true mn mx idx).
Proof.
  intros H I. unfold value_count, between. destruct mx as [k|].
  - specialize (H k eq_refl). destruct (Z.eqb_spec k (-1)).
    + eapply always_weaken; [|apply choose_between; lia]. cbn. intros a A. lia.
    + rewrite as_usize_small by lia. eapply always_weaken; [|apply choose_between; lia]. cbn. intros a A. lia.
  - eapply always_weaken; [|apply choose_between; lia]. cbn. intros a A. lia.
Qed.
Lemma relationship_count_between st mn mx n idx : enough_targets mn mx n -> 0 <= idx ->
  always (fun k => 0 <= k <= n /\ between mn mx k) (relationship_count checks rand st mn mx n idx).
Proof.
  intros [N H] I. unfold relationship_count, between in *. set (m := match mn with Some m => m | None => 1 end) in *. clearbody m. clear mn.
  destruct mx as [k|].
  - destruct H as [[-> H]|H].
    + change (-1 =? -1) with true. cbn iota. eapply always_weaken; [|apply choose_between; lia]. cbn. intros a A. lia.
    + destruct (Z.eqb_spec k (-1)); [lia|]. rewrite as_usize_small by lia. eapply always_weaken; [|apply choose_between; lia]. cbn. intros a A. lia.
  - eapply always_weaken; [|apply choose_between; lia]. cbn. intros a A. lia.
Qed.
End Draws.

(* ------------------------------------------------------------------ *)
(* Texts of numbers                                                     *)

Lemma show_z_denotes z : denotes (show_z z) z.
Proof. exists (Z.to_int z). split; [apply NilZero.isi; intro E; [|]|apply DecimalZ.of_to].
  - destruct z; cbn in E; try discriminate. inversion E as [E']. apply Unsigned.to_uint_nonnil in E'. destruct E'.
  - destruct z; cbn in E; try discriminate. inversion E as [E']. apply Unsigned.to_uint_nonnil in E'. destruct E'.
Qed.
