(** C25, C26, C40. *)
From Coq Require Import ZArith QArith Qabs List Bool Lia.
From Verif Require Import NumModel NumSpec NumLemmas.
Local Open Scope Z_scope.

(** C25. The facets agree with the order of numbers whenever both literals are represented by their
    decimals, or both are xsd:integer. Full statement: for all literals. *)
Theorem C25_facets_partial from_f64 from_f32 v b : comparable from_f64 from_f32 v b ->
  (min_inclusive from_f64 from_f32 v b = true <-> xle (value b) (value v)) /\
  (min_exclusive from_f64 from_f32 v b = true <-> xlt (value b) (value v)) /\
  (max_exclusive from_f64 from_f32 v b = true <-> xlt (value v) (value b)) /\
  (max_inclusive from_f64 from_f32 v b = true <-> xle (value v) (value b)).
Proof. exact (facets_spec from_f64 from_f32 v b). Qed.
Print Assumptions C25_facets_partial.
(** decimals, and integers of at most 96 bits, are represented *)
Theorem C25_represented from_f64 from_f32 n :
  match n with
  | NInt _ z => Z.abs z < 2 ^ 96
  | NDecimal _ => True
  | _ => False
  end -> represented from_f64 from_f32 n.
Proof.
  destruct n as [k z|d|b|b]; intro H; try contradiction; [apply int_represented; unfold max_mant; lia|apply decimal_represented].
Qed.
Print Assumptions C25_represented.
(** every other literal is treated as smaller than all represented ones *)
Theorem C25_no_decimal from_f64 from_f32 v b : to_decimal from_f64 from_f32 v = None -> to_decimal from_f64 from_f32 b <> None ->
  min_inclusive from_f64 from_f32 v b = false /\ min_exclusive from_f64 from_f32 v b = false /\
  max_exclusive from_f64 from_f32 v b = true /\ max_inclusive from_f64 from_f32 v b = true \/
  exists x y, v = NInt KInteger x /\ b = NInt KInteger y.
Proof. exact (facets_no_decimal from_f64 from_f32 v b). Qed.
Print Assumptions C25_no_decimal.
Example C25_met : comparable (fun _ => None) (fun _ => None) (NInt KByte 5) (NDecimal {| mant := 49; scale := 1 |}) /\
  min_exclusive (fun _ => None) (fun _ => None) (NInt KByte 5) (NDecimal {| mant := 49; scale := 1 |}) = true.
Proof. split; [left; split; [apply int_represented; vm_compute; discriminate|apply decimal_represented]|reflexivity]. Qed.

Definition infinity : num := NDouble (2047 * 2 ^ 52).
(** positive infinity satisfies maxInclusive 5 and not minInclusive 5 *)
Theorem C25_infinity_refuted : exists v b, well_formed v /\ well_formed b /\ value v = XInf false /\
  forall from_f64 from_f32, no_decimal_unless_finite from_f64 from_f32 ->
    (max_inclusive from_f64 from_f32 v b = true /\ ~ xle (value v) (value b)) /\
    (min_inclusive from_f64 from_f32 v b = false /\ xle (value b) (value v)).
Proof.
  exists infinity, (NInt KInteger 5). split; [vm_compute; split; congruence|]. split; [vm_compute; split; congruence|].
  assert (V : value infinity = XInf false) by (vm_compute; reflexivity). split; [exact V|].
  intros f g [H _]. assert (N : f (2047 * 2 ^ 52) = None) by (apply H; change (value (NDouble (2047 * 2 ^ 52))) with (value infinity); rewrite V; auto).
  unfold infinity, max_inclusive, min_inclusive, less_than, less_than_or_eq. cbn [to_decimal]. rewrite N.
  change (value (NDouble (2047 * 2 ^ 52))) with (value infinity). rewrite V. split; (split; [reflexivity|]).
  - intros [L|E]; [cbn in L; discriminate|exact E].
  - left. reflexivity.
Qed.
Print Assumptions C25_infinity_refuted.
(** so does a large xsd:nonNegativeInteger *)
Theorem C25_large_integer_refuted : exists v b, well_formed v /\ well_formed b /\
  forall from_f64 from_f32, max_inclusive from_f64 from_f32 v b = true /\ ~ xle (value v) (value b).
Proof.
  exists (NInt KNonNegativeInteger (10 ^ 30)), (NInt KInteger 5). split; [vm_compute; split; congruence|]. split; [vm_compute; split; congruence|].
  intros f g. split; [vm_compute; reflexivity|]. intros [L|E]; vm_compute in L || vm_compute in E; discriminate.
Qed.
Print Assumptions C25_large_integer_refuted.
(** and an xsd:integer, compared with an xsd:decimal bound *)
Theorem C25_large_bound_refuted : exists v b, well_formed v /\ well_formed b /\
  forall from_f64 from_f32, max_inclusive from_f64 from_f32 v b = true /\ ~ xle (value v) (value b).
Proof.
  exists (NInt KInteger (10 ^ 30)), (NDecimal {| mant := 55; scale := 1 |}). split; [vm_compute; split; congruence|].
  split; [cbn; split; [vm_compute; congruence|lia]|].
  intros f g. split; [vm_compute; reflexivity|]. intros [L|E]; vm_compute in L || vm_compute in E; discriminate.
Qed.
Print Assumptions C25_large_bound_refuted.

(** C26. Equality is an equivalence, compatible with hashing. *)
Theorem C26_equivalence from_f64 from_f32 a b c :
  num_eqb from_f64 from_f32 a a = true /\
  (num_eqb from_f64 from_f32 a b = true -> num_eqb from_f64 from_f32 b a = true) /\
  (num_eqb from_f64 from_f32 a b = true -> num_eqb from_f64 from_f32 b c = true -> num_eqb from_f64 from_f32 a c = true).
Proof. split; [apply num_eqb_refl|]. split; [apply num_eqb_sym|apply num_eqb_trans]. Qed.
Print Assumptions C26_equivalence.
Theorem C26_hash from_f64 from_f32 a b : num_eqb from_f64 from_f32 a b = true -> num_hash from_f64 from_f32 a = num_hash from_f64 from_f32 b.
Proof. exact (num_eqb_hash from_f64 from_f32 a b). Qed.
Print Assumptions C26_hash.
(** Comparing reports Equal exactly for equal literals that have a decimal. *)
Theorem C26_order_partial from_f64 from_f32 a b :
  partial_cmp from_f64 from_f32 a b = Some Eq <-> num_eqb from_f64 from_f32 a b = true /\ to_decimal from_f64 from_f32 a <> None.
Proof. exact (partial_cmp_Eq from_f64 from_f32 a b). Qed.
Print Assumptions C26_order_partial.
Theorem C26_order_refuted : exists a, well_formed a /\
  forall from_f64 from_f32, num_eqb from_f64 from_f32 a a = true /\ partial_cmp from_f64 from_f32 a a = None.
Proof.
  exists (NInt KInteger (10 ^ 30)). split; [vm_compute; split; congruence|]. intros f g. split; vm_compute; reflexivity.
Qed.
Print Assumptions C26_order_refuted.
(** Equality is equality of values for represented literals; two spellings of one large integer differ. *)
Theorem C26_value_partial from_f64 from_f32 a b : represented from_f64 from_f32 a -> represented from_f64 from_f32 b ->
  (num_eqb from_f64 from_f32 a b = true <-> xeq (value a) (value b)).
Proof.
  intros (x & A & VA) (y & B & VB). rewrite num_eqb_spec, A, B.
  destruct (value a), (value b); cbn [xeq] in *; try contradiction. rewrite VA, VB. reflexivity.
Qed.
Print Assumptions C26_value_partial.
Theorem C26_value_refuted : exists a b, well_formed a /\ well_formed b /\ xeq (value a) (value b) /\
  forall from_f64 from_f32, num_eqb from_f64 from_f32 a b = false.
Proof.
  exists (NInt KInteger (10 ^ 30)), (NInt KNonNegativeInteger (10 ^ 30)). split; [vm_compute; split; congruence|].
  split; [vm_compute; split; congruence|]. split; [reflexivity|]. intros f g. vm_compute. reflexivity.
Qed.
Print Assumptions C26_value_refuted.
Example C26_met : num_eqb (fun _ => None) (fun _ => None) (NInt KByte 5) (NDecimal {| mant := 500; scale := 2 |}) = true /\
  num_hash (fun _ => None) (fun _ => None) (NDecimal {| mant := 500; scale := 2 |}) = HDec {| mant := 5; scale := 0 |}.
Proof. split; reflexivity. Qed.

(** C40. totalDigits and fractionDigits, per XML Schema. *)
Theorem C40_fraction_digits n f : match n with NDouble _ | NFloat _ => False | _ => True end ->
  (fraction_digits_ok n f = true <-> exists q, value n = XFin q /\ has_fraction_digits q f).
Proof.
  destruct n as [k z|d|b|b]; intro H; try contradiction; unfold fraction_digits_ok; cbn [fraction_digits value]; rewrite Nat.leb_le.
  - split; [intros _|lia]. exists (inject_Z z). split; [reflexivity|]. exists z, O. split; [lia|]. reflexivity.
  - rewrite <- fraction_spec. split; [intro F; exists (dec_value d); auto|intros (q & E & F); injection E as <-; exact F].
Qed.
Print Assumptions C40_fraction_digits.
(** integers, and decimals of absolute value at least one *)
Theorem C40_total_digits_partial n t q : well_formed n -> (1 <= t)%nat -> value n = XFin q ->
  match n with NInt _ _ => True | NDecimal _ => (1 <= Qabs q)%Q | _ => False end ->
  (total_digits_ok n t = true <-> has_total_digits q t).
Proof.
  destruct n as [k z|d|b|b]; intros W T V H; try contradiction; injection V as <-.
  - apply total_digits_int; assumption.
  - rewrite total_digits_dec by exact T. split; [tauto|]. intro D. split; [exact D|].
    apply total_spec in D; [|exact T]. apply large_scale in H. lia.
Qed.
Print Assumptions C40_total_digits_partial.
(** for every decimal: what the code accepts *)
Theorem C40_total_digits_accepts d t : (1 <= t)%nat ->
  (total_digits_ok (NDecimal d) t = true <-> has_total_digits (dec_value d) t /\ (scale (normalize d) < t)%nat).
Proof. exact (total_digits_dec d t). Qed.
Print Assumptions C40_total_digits_accepts.
(** 0.5 has one digit and is rejected by totalDigits 1 *)
Theorem C40_total_digits_refuted : exists n t q, well_formed n /\ value n = XFin q /\ has_total_digits q t /\ total_digits_ok n t = false.
Proof.
  exists (NDecimal {| mant := 5; scale := 1 |}), 1%nat, (dec_value {| mant := 5; scale := 1 |}).
  split; [cbn; split; [vm_compute; congruence|lia]|]. split; [reflexivity|]. split; [|reflexivity].
  exists 5, 1%nat. split; [lia|]. split; [reflexivity|]. reflexivity.
Qed.
Print Assumptions C40_total_digits_refuted.
Example C40_met : total_digits_ok (NDecimal {| mant := 12300; scale := 3 |}) 3 = true /\ total_digits_ok (NInt KByte (-128)) 2 = false /\
  fraction_digits_ok (NDecimal {| mant := 12300; scale := 3 |}) 1 = true /\ (1 <= Qabs (dec_value {| mant := 12300%Z; scale := 3 |}))%Q.
Proof. repeat split; vm_compute; congruence. Qed.
