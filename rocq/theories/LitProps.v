(** C41, C42, C43, C44, C45, C46, C47, C48. *)
From Coq Require Import ZArith NArith QArith List Bool Lia Ascii String.
Import ListNotations.
From Verif Require Import NumModel NumSpec NumLemmas LitModel LitSpec LitLemmas.
Local Open Scope Z_scope.

Fixpoint txt (s : string) : str := match s with EmptyString => [] | String c s => N_of_ascii c :: txt s end.
(** a library for the examples: no floats, dates or decimals; language tags are kept *)
Definition lib0 : lib := {|
  parse_dec := fun _ => None; parse_f64 := fun _ => None; parse_f32 := fun _ => None;
  show_dec := fun _ => []; show_f64 := fun _ => []; show_f32 := fun _ => []; ox_f64 := fun _ => []; ox_f32 := fun _ => [];
  ox_i16 := DInt KInteger; f64_dec := fun _ => None; f32_dec := fun _ => None; parse_date := fun _ => None; show_date := fun _ => [];
  cmp_date := fun _ _ => None; eqb_date := fun _ _ => false; lang_new := fun t => Some t |}.

(** C41. A datatype constraint for an integer type: what satisfies it is a literal of this type whose text is in
    the lexical space of the type, or has two signs. *)
Theorem C41_integer_sound_partial L t l k : of_term L t = Some l -> datatype_ok L (OLit l) (DInt k) = true ->
  exists s, t = OTyped s (DInt k) /\ ((exists z, xsd_int k s z) \/ k = KNonNegativeInteger /\ double_sign s).
Proof.
  destruct t as [s|s g|s d]; intros H K.
  - apply of_simple in H. subst. discriminate.
  - apply of_lang in H as (x & _ & ->). discriminate.
  - rewrite (datatype_ok_typed L s d (DInt k) l H) in K. apply andb_true_iff in K as [W D]. apply dtype_eqb_spec in D. subst d.
    exists s. split; [reflexivity|]. apply negb_true_iff, int_not_wrong in W as [z P].
    apply parse_int_sound in P as [[X _]|(E & X & _)]; [left; eauto|right; auto].
Qed.
Print Assumptions C41_integer_sound_partial.
(** Every text of the lexical space is accepted if the number fits 128 bits and an unsigned type has no minus
    sign. Full statement: without these two conditions. *)
Theorem C41_integer_complete_partial L s l k z : of_term L (OTyped s (DInt k)) = Some l -> xsd_int k s z -> fits k z ->
  (signless k -> ~ starts_minus s) -> datatype_ok L (OLit l) (DInt k) = true.
Proof.
  intros H X F M. rewrite (datatype_ok_typed L s (DInt k) (DInt k) l H), dtype_eqb_refl, andb_true_r. apply negb_true_iff, int_not_wrong.
  exists z. apply parse_int_complete; assumption.
Qed.
Print Assumptions C41_integer_complete_partial.
Theorem C41_boolean L t l : of_term L t = Some l ->
  (datatype_ok L (OLit l) DBoolean = true <-> exists s b, t = OTyped s DBoolean /\ xsd_boolean s b).
Proof.
  destruct t as [s|s g|s d]; intro H.
  - apply of_simple in H. subst. split; [discriminate|intros (s0 & b & E & _); discriminate].
  - apply of_lang in H as (x & _ & ->). split; [discriminate|intros (s0 & b & E & _); discriminate].
  - rewrite (datatype_ok_typed L s d DBoolean l H), andb_true_iff, dtype_eqb_spec, negb_true_iff. split.
    + intros [W ->]. cbn [check_datatype] in W. destruct (parse_bool s) as [b|] eqn:P; [|discriminate]. exists s, b. split; [reflexivity|]. apply parse_bool_spec, P.
    + intros (s0 & b & E & X). injection E as -> ->. split; [|reflexivity]. apply parse_bool_spec in X. cbn [check_datatype]. rewrite X. reflexivity.
Qed.
Print Assumptions C41_boolean.
Theorem C41_strings L t l : of_term L t = Some l -> proper t ->
  (datatype_ok L (OLit l) DString = true <-> exists s, t = OSimple s) /\
  (datatype_ok L (OLit l) DLangString = true <-> exists s g, t = OLang s g).
Proof.
  destruct t as [s|s g|s d]; intros H P.
  - apply of_simple in H. subst. split; [split; [eauto|reflexivity]|split; [discriminate|intros (s0 & b & E); discriminate]].
  - apply of_lang in H as (x & _ & ->). split; [split; [discriminate|intros (s0 & E); discriminate]|split; [eauto|reflexivity]].
  - rewrite !(datatype_ok_typed L s d _ l H), !andb_true_iff, !dtype_eqb_spec. cbn [proper] in P. split; split.
    + intros [_ ->]. destruct P.
    + intros (s0 & E). discriminate.
    + intros [_ ->]. destruct P.
    + intros (s0 & b & E). discriminate.
Qed.
Print Assumptions C41_strings.
(** IRIs and blank nodes never satisfy a datatype constraint *)
(** doubles and floats: what Rust reads, without +INF and +infinity in any case *)
Theorem C41_double L t l : of_term L t = Some l ->
  (datatype_ok L (OLit l) DDouble = true <-> exists s, t = OTyped s DDouble /\ ~ plus_infinity s /\ parse_f64 L s <> None) /\
  (datatype_ok L (OLit l) DFloat = true <-> exists s, t = OTyped s DFloat /\ ~ plus_infinity s /\ parse_f32 L s <> None).
Proof.
  destruct t as [s|s g|s d]; intro H.
  - apply of_simple in H. subst. split; (split; [discriminate|intros (s0 & E & _); discriminate]).
  - apply of_lang in H as (x & _ & ->). split; (split; [discriminate|intros (s0 & E & _); discriminate]).
  - rewrite !(datatype_ok_typed L s d _ l H), !andb_true_iff, !dtype_eqb_spec, !negb_true_iff. split; split.
    + intros [W ->]. exists s. split; [reflexivity|]. rewrite <- bad_float_spec. cbn [check_datatype] in W.
      destruct (bad_float s); [discriminate|]. split; [discriminate|]. destruct (parse_f64 L s); discriminate.
    + intros (s0 & E & P & Q). injection E as -> ->. split; [|reflexivity]. rewrite <- bad_float_spec in P. cbn [check_datatype].
      destruct (bad_float s0); [contradiction P; reflexivity|]. destruct (parse_f64 L s0); [reflexivity|contradiction Q; reflexivity].
    + intros [W ->]. exists s. split; [reflexivity|]. rewrite <- bad_float_spec. cbn [check_datatype] in W.
      destruct (bad_float s); [discriminate|]. split; [discriminate|]. destruct (parse_f32 L s); discriminate.
    + intros (s0 & E & P & Q). injection E as -> ->. split; [|reflexivity]. rewrite <- bad_float_spec in P. cbn [check_datatype].
      destruct (bad_float s0); [contradiction P; reflexivity|]. destruct (parse_f32 L s0); [reflexivity|contradiction Q; reflexivity].
Qed.
Print Assumptions C41_double.
Lemma not_float_letter c r : ((c < 43) \/ (c = 44) \/ (c = 47) \/ (57 < c /\ c <> 73 /\ c <> 78))%N -> ~ float_lexical (c :: r).
Proof.
  intros C [(g & m & e & E & [->|[->| ->]] & M & _)|[E|[E|[E|E]]]]; cbn [app] in E; try (injection E as -> _; lia).
  destruct M as [[N D]|(a & b & -> & A & B & _)].
  - destruct m as [|x m]; [contradiction N; reflexivity|]. cbn in E. injection E as -> _. inversion D as [|? ? X _]; subst. unfold is_digit in X. lia.
  - destruct a as [|x a]; cbn in E; injection E as -> _; [lia|]. inversion A as [|? ? X _]; subst. unfold is_digit in X. lia.
Qed.
(** Rust reads infinity and nan in any case, which are not in the lexical space; and +INF is in it *)
Theorem C41_infinity_refuted : exists s, ~ float_lexical s /\
  forall L l, parse_f64 L s <> None -> of_term L (OTyped s DDouble) = Some l -> datatype_ok L (OLit l) DDouble = true.
Proof.
  exists (txt "infinity"). split; [change (txt "infinity") with (105 :: 110 :: txt "finity")%N; apply not_float_letter; lia|]. intros L l P H. apply (C41_double L _ l H). exists (txt "infinity").
  split; [reflexivity|]. split; [|exact P]. rewrite <- bad_float_spec. discriminate.
Qed.
Print Assumptions C41_infinity_refuted.
Theorem C41_plus_infinity_refuted : exists s, float_lexical s /\ forall L l, of_term L (OTyped s DDouble) = Some l -> datatype_ok L (OLit l) DDouble = false.
Proof.
  exists (txt "+INF"). split; [right; right; left; reflexivity|]. intros L l H. cbn in H. injection H as <-. reflexivity.
Qed.
Print Assumptions C41_plus_infinity_refuted.
Theorem C41_literals_only L o d : datatype_ok L o d = true -> exists l, o = OLit l.
Proof. destruct o; [discriminate|discriminate|eauto]. Qed.
Print Assumptions C41_literals_only.
(** any text is an xsd:int *)
Theorem C41_xsd_int_refuted : exists s, (forall z, ~ int_lexical s z) /\
  forall L l, of_term L (OTyped s DXsdInt) = Some l -> datatype_ok L (OLit l) DXsdInt = true.
Proof.
  exists (txt "abc"). split.
  - intros z I. inversion I as [s z1 (_ & F & _)|s z1 U|s z1 U]; subst. inversion F as [|? ? D _]; subst. unfold is_digit in D. cbn in D. lia.
  - intros L l H. rewrite (datatype_ok_typed L _ _ _ l H). reflexivity.
Qed.
Print Assumptions C41_xsd_int_refuted.
(** two plus signs are accepted *)
Theorem C41_two_signs_refuted : exists s, (forall z, ~ int_lexical s z) /\
  forall L l, of_term L (OTyped s (DInt KNonNegativeInteger)) = Some l -> datatype_ok L (OLit l) (DInt KNonNegativeInteger) = true.
Proof.
  exists (txt "++5"). split.
  - intros z I. inversion I as [s z1 U|s z1 U|s z1 U]; subst; eapply not_digit_plus; exact U.
  - intros L l H. rewrite (datatype_ok_typed L _ _ _ l H). reflexivity.
Qed.
Print Assumptions C41_two_signs_refuted.
(** minus zero is an xsd:unsignedByte *)
Theorem C41_minus_zero_refuted : exists s, xsd_int KUnsignedByte s 0 /\
  forall L l, of_term L (OTyped s (DInt KUnsignedByte)) = Some l -> datatype_ok L (OLit l) (DInt KUnsignedByte) = false.
Proof.
  exists (txt "-0"). split.
  - split; [|cbn; lia]. apply (il_minus (txt "0") 0). split; [discriminate|]. split; [|reflexivity]. constructor; [unfold is_digit; cbn; lia|constructor].
  - intros L l H. rewrite (datatype_ok_typed L _ _ _ l H). reflexivity.
Qed.
Print Assumptions C41_minus_zero_refuted.
Theorem C41_large_refuted : exists s z, xsd_int KInteger s z /\
  forall L l, of_term L (OTyped s (DInt KInteger)) = Some l -> datatype_ok L (OLit l) (DInt KInteger) = false.
Proof.
  exists (show_Z (2 ^ 127)), (2 ^ 127). split; [split; [apply show_Z_lexical|exact Logic.I]|].
  intros L l H. rewrite (datatype_ok_typed L _ _ _ l H). vm_compute. reflexivity.
Qed.
Print Assumptions C41_large_refuted.
Example C41_met : exists l, of_term lib0 (OTyped (txt "-007") (DInt KByte)) = Some l /\ datatype_ok lib0 (OLit l) (DInt KByte) = true /\
  xsd_int KByte (txt "-007") (-7) /\ fits KByte (-7) /\ datatype_ok lib0 (OLit l) (DInt KShort) = false.
Proof.
  exists (LNum (NInt KByte (-7))). split; [reflexivity|]. split; [reflexivity|]. split; [|split; [cbn; lia|reflexivity]].
  split; [|cbn; lia]. apply (il_minus (txt "007") 7). split; [discriminate|]. split; [|reflexivity].
  repeat constructor; unfold is_digit; cbn; lia.
Qed.

(** C42. Length facets count the characters of the text, for texts of ASCII characters that are kept as they
    are written. Full statement: for every literal. *)
Theorem C42_length_partial L t l n : of_term L t = Some l -> ascii (term_lexical t) -> lexical_form L l = term_lexical t ->
  (length_ok L (OLit l) n = true <-> List.length (term_lexical t) = n) /\
  (min_length_ok L (OLit l) n = true <-> (n <= List.length (term_lexical t))%nat) /\
  (max_length_ok L (OLit l) n = true <-> (List.length (term_lexical t) <= n)%nat).
Proof.
  intros H A E. unfold length_ok, min_length_ok, max_length_ok, obj_length. rewrite E, (str_len_ascii _ A).
  rewrite Nat.eqb_eq, !Nat.leb_le. split; [|split]; reflexivity.
Qed.
Print Assumptions C42_length_partial.
(** whose text is kept *)
Theorem C42_kept L t l : of_term L t = Some l -> keeps (term_datatype t) -> lexical_form L l = term_lexical t.
Proof. exact (keeps_lexical L t l). Qed.
Print Assumptions C42_kept.
(** an integer of another type than xsd:integer keeps its text exactly if it is canonical *)
Theorem C42_kept_integer L s l k z : k <> KInteger -> of_term L (OTyped s (DInt k)) = Some l -> xsd_int k s z -> fits k z ->
  (signless k -> ~ starts_minus s) -> (lexical_form L l = s <-> canonical_int s).
Proof.
  intros N H X F M. destruct (int_lexical_form L k s z l N (parse_int_complete k s z X F M) H) as [-> ->]. split.
  - intros <-. apply show_Z_canonical.
  - intro C. symmetry. apply canonical_show; [apply X|exact C].
Qed.
Print Assumptions C42_kept_integer.
(** one character, two bytes: length 1 is violated *)
Theorem C42_bytes_refuted : exists s, List.length s = 1%nat /\
  forall L l, of_term L (OSimple s) = Some l -> length_ok L (OLit l) 1 = false /\ max_length_ok L (OLit l) 1 = false.
Proof. exists [233%N]. split; [reflexivity|]. intros L l H. apply of_simple in H. subst. split; reflexivity. Qed.
Print Assumptions C42_bytes_refuted.
(** two characters, counted as one *)
Theorem C42_normalised_refuted : exists s, ascii s /\ List.length s = 2%nat /\
  forall L l, of_term L (OTyped s (DInt KByte)) = Some l -> length_ok L (OLit l) 2 = false /\ lexical_form L l = txt "1".
Proof.
  exists (txt "01"). split; [repeat constructor|]. split; [reflexivity|]. intros L l H. cbn in H. injection H as <-. split; reflexivity.
Qed.
Print Assumptions C42_normalised_refuted.
Example C42_met : exists l, of_term lib0 (OTyped (txt "2024-01-01") (DOther (txt "date"))) = Some l /\
  length_ok lib0 (OLit l) 10 = true /\ ascii (txt "2024-01-01") /\ keeps (DOther (txt "date")).
Proof. eexists. split; [reflexivity|]. split; [reflexivity|]. split; [|exact Logic.I]. repeat constructor. Qed.

(** C43. Reading a literal and turning it back gives the literal. *)
Theorem C43_round_trip_partial L t l : of_term L t = Some l -> proper t -> keeps (term_datatype t) ->
  match t with OLang _ g => lang_new L g = Some g | _ => True end -> to_term L l = t.
Proof. exact (to_term_keeps L t l). Qed.
Print Assumptions C43_round_trip_partial.
(** integers of the other types: the same type and number, but the same literal only if it was canonical *)
Theorem C43_integer_value L s l k z : k <> KInteger -> (k = KShort -> ox_i16 L = DInt KShort) -> of_term L (OTyped s (DInt k)) = Some l ->
  xsd_int k s z -> fits k z -> (signless k -> ~ starts_minus s) ->
  (exists s', to_term L l = OTyped s' (DInt k) /\ int_lexical s' z /\ canonical_int s') /\
  (to_term L l = OTyped s (DInt k) <-> canonical_int s).
Proof.
  intros N S H X F M. destruct (int_lexical_form L k s z l N (parse_int_complete k s z X F M) H) as [-> _].
  assert (E : to_term L (LNum (NInt k z)) = OTyped (show_Z z) (DInt k)) by (destruct k; try contradiction; try reflexivity; cbn [to_term num_to_term]; rewrite S; reflexivity).
  rewrite E. split; [exists (show_Z z); split; [reflexivity|]; split; [apply show_Z_lexical|apply show_Z_canonical]|]. split.
  - intro Q. injection Q as <-. apply show_Z_canonical.
  - intro C. f_equal. symmetry. apply canonical_show; [apply X|exact C].
Qed.
Print Assumptions C43_integer_value.
(** integers in range survive the other way *)
Theorem C43_integer_object L k z : k <> KInteger -> (k = KShort -> ox_i16 L = DInt KShort) -> imin k <= z <= imax k ->
  of_term L (to_term L (LNum (NInt k z))) = Some (LNum (NInt k z)).
Proof.
  intros N S R. assert (E : to_term L (LNum (NInt k z)) = OTyped (show_Z z) (DInt k)) by (destruct k; try contradiction; try reflexivity; cbn [to_term num_to_term]; rewrite S; reflexivity).
  rewrite E. replace (of_term L (OTyped (show_Z z) (DInt k))) with (Some (check_datatype L (show_Z z) (DInt k))) by (destruct k; try contradiction; reflexivity).
  rewrite check_int, parse_show by exact R. reflexivity.
Qed.
Print Assumptions C43_integer_object.
(** an arc into a literal that is not found when the literal is the focus node *)
Theorem C43_incoming_refuted : exists x p t, forall L l, of_term L t = Some l -> to_term L l <> t /\ incoming L [(x, p, t)] l = [].
Proof.
  exists (txt "x"), (txt "p"), (OTyped (txt "01") (DInt KByte)). intros L l H. cbn in H. injection H as <-. split; [discriminate|reflexivity].
Qed.
Print Assumptions C43_incoming_refuted.
Theorem C43_incoming_boolean_refuted : exists x p t, forall L l, of_term L t = Some l -> to_term L l <> t /\ incoming L [(x, p, t)] l = [].
Proof.
  exists (txt "x"), (txt "p"), (OTyped (txt "1") DBoolean). intros L l H. cbn in H. injection H as <-. split; [discriminate|reflexivity].
Qed.
Print Assumptions C43_incoming_boolean_refuted.
(** the arcs are all found when the literal survives *)
Theorem C43_incoming L g t l x p : to_term L l = t -> In (x, p, t) g -> In (x, p) (incoming L g l).
Proof.
  intros <- H. unfold incoming. apply in_map_iff. exists (x, p, to_term L l). split; [reflexivity|]. apply filter_In. split; [exact H|].
  cbn [snd]. destruct (to_term L l); cbn [oxlit_eqb]; rewrite ?str_eqb_refl, ?dtype_eqb_refl; reflexivity.
Qed.
Print Assumptions C43_incoming.
Example C43_met : exists l, of_term lib0 (OTyped (txt "007") (DInt KInteger)) = Some l /\ to_term lib0 l = OTyped (txt "007") (DInt KInteger) /\
  incoming lib0 [(txt "x", txt "p", OTyped (txt "007") (DInt KInteger))] l = [(txt "x", txt "p")].
Proof. eexists. split; [reflexivity|]. split; reflexivity. Qed.

(** C44. Numeric facets on integer literals of the data, up to 96 bits, compare the number that is written. *)
Theorem C44_integer_partial L s l k z b : of_term L (OTyped s (DInt k)) = Some l -> xsd_int k s z -> Z.abs z < 2 ^ 96 ->
  (signless k -> ~ starts_minus s) -> represented (f64_dec L) (f32_dec L) b ->
  let v := XFin (inject_Z z) in
  (facet_ok L (fun n => min_inclusive (f64_dec L) (f32_dec L) n b) (OLit l) = true <-> xle (value b) v) /\
  (facet_ok L (fun n => min_exclusive (f64_dec L) (f32_dec L) n b) (OLit l) = true <-> xlt (value b) v) /\
  (facet_ok L (fun n => max_exclusive (f64_dec L) (f32_dec L) n b) (OLit l) = true <-> xlt v (value b)) /\
  (facet_ok L (fun n => max_inclusive (f64_dec L) (f32_dec L) n b) (OLit l) = true <-> xle v (value b)).
Proof.
  intros H X A M R v. assert (P : parse_int k s = Some z) by (apply parse_int_complete; [exact X|destruct k; cbn [fits]; lia|exact M]).
  assert (N : facet_number L (OLit l) = Some (NInt k z)) by (unfold facet_number, checked; rewrite (of_term_checked L s (DInt k) l H), check_int, P; reflexivity).
  unfold facet_ok. rewrite N. change v with (value (NInt k z)). apply facets_spec. left. split; [|exact R].
  apply int_represented. unfold max_mant. lia.
Qed.
Print Assumptions C44_integer_partial.
(** only literals of a numeric datatype satisfy a numeric facet *)
Theorem C44_numbers_only L t l f : of_term L t = Some l -> facet_ok L f (OLit l) = true ->
  exists s d, t = OTyped s d /\ match d with DInt _ | DDecimal | DDouble | DFloat => True | _ => False end.
Proof.
  destruct t as [s|s g|s d]; intros H K.
  - apply of_simple in H. subst. discriminate.
  - apply of_lang in H as (x & _ & ->). discriminate.
  - exists s, d. split; [reflexivity|]. unfold facet_ok, facet_number, checked in K. rewrite (of_term_checked L s d l H) in K.
    destruct d; try exact Logic.I; try discriminate K; cbn [check_datatype] in K.
    + destruct (parse_bool s); discriminate.
    + destruct (parse_date L s); discriminate.
Qed.
Print Assumptions C44_numbers_only.
(** an xsd:int satisfies no facet *)
Theorem C44_xsd_int_refuted : exists s z, int_lexical s z /\ 0 <= z /\
  forall L l f, of_term L (OTyped s DXsdInt) = Some l -> facet_ok L f (OLit l) = false.
Proof.
  exists (txt "5"), 5. split; [apply il_none; split; [discriminate|]; split; [repeat constructor; unfold is_digit; cbn; lia|reflexivity]|]. split; [lia|].
  intros L l f H. cbn in H. injection H as <-. reflexivity.
Qed.
Print Assumptions C44_xsd_int_refuted.
Example C44_met : exists l, of_term lib0 (OTyped (txt "+12") (DInt KUnsignedByte)) = Some l /\
  facet_ok lib0 (fun n => min_inclusive (f64_dec lib0) (f32_dec lib0) n (NInt KInteger 12)) (OLit l) = true /\
  xsd_int KUnsignedByte (txt "+12") 12 /\ represented (f64_dec lib0) (f32_dec lib0) (NInt KInteger 12).
Proof.
  eexists. split; [reflexivity|]. split; [reflexivity|]. split; [|apply int_represented; vm_compute; discriminate].
  split; [|cbn; lia]. apply (il_plus (txt "12") 12). split; [discriminate|]. split; [repeat constructor; unfold is_digit; cbn; lia|reflexivity].
Qed.

(** C45. The bound of a numeric facet written as a decimal in ShExC is the number that is written, if no zero
    directly follows the point (unless the fraction is this zero) and the number is not between -1 and 0.
    Full statement: for every decimal. *)
Theorem C45_bound_partial w f d q : shexc_decimal w f = Some d -> decimal_text w f q ->
  (forall r, f = 48%N :: r -> r = []) -> (Qle 0 q \/ Qle q (-1 # 1))%Q -> (dec_value d == q)%Q.
Proof.
  unfold shexc_decimal. destruct (parse_signed _ _ w) as [a|] eqn:PW; [|discriminate]. destruct (parse_unsigned _ f) as [b|] eqn:PF; [|discriminate].
  intros H T Z0 Q0. apply parse_signed_spec in PW as [IW _]. apply parse_unsigned_spec in PF as [UF _].
  assert (F : Forall is_digit f) by (destruct T; assumption).
  assert (UL : unsigned_lexical f b).
  { destruct UF as [U|(r & -> & _)]; [exact U|]. inversion F as [|? ? D _]; subst. unfold is_digit in D. lia. }
  pose proof (unsigned_nonneg _ _ UL) as B. rewrite (parts_value a b d H B).
  assert (E : Qmake b (Z.to_pos (10 ^ Z.of_nat (ndigits b))) = frac_value f).
  { unfold frac_value. destruct UL as (NE & _ & V). rewrite V.
    assert (LN : ndigits b = List.length f).
    { destruct f as [|c r]; [contradiction|]. pose proof (digits_value_lt (c :: r) F) as U. rewrite V in U.
      assert (ndigits b <= List.length (c :: r))%nat by (apply ndigits_spec; [exact B|cbn; lia|unfold pow10; lia]).
      enough (~ (ndigits b <= List.length r)%nat) by (cbn [List.length] in *; lia). intro K.
      destruct r as [|c' r']; [pose proof (ndigits_pos b); cbn in K; lia|].
      apply ndigits_spec in K; [|exact B|cbn; lia]. inversion F as [|? ? D F']; subst. unfold is_digit in D.
      assert (c <> 48%N) by (intro X; subst c; specialize (Z0 _ eq_refl); discriminate).
      assert (G : forall s acc, Forall is_digit s -> 0 <= acc -> acc * pow10 (List.length s) <= fold_left (fun a c => 10 * a + (Z.of_N c - 48)) s acc).
      { induction s as [|x s IH]; intros acc Fs A; [unfold pow10; cbn; lia|]. inversion Fs as [|? ? Dx Fs']; subst. unfold is_digit in Dx.
        cbn [List.length fold_left]. rewrite pow10_S. specialize (IH (10 * acc + (Z.of_N x - 48)) Fs' ltac:(lia)). pose proof (pow10_pos (List.length s)). nia. }
      specialize (G (c' :: r') (10 * 0 + (Z.of_N c - 48)) F' ltac:(lia)). unfold digits_value in K. cbn [fold_left] in K, G.
      pose proof (pow10_pos (List.length (c' :: r'))). nia. }
    rewrite LN. reflexivity. }
  rewrite E.
  assert (FN : (0 <= frac_value f)%Q) by (unfold frac_value, Qle; cbn; pose proof (digits_value_lt f F); lia).
  assert (F1 : (frac_value f < 1)%Q) by (unfold frac_value, Qlt; cbn [Qnum Qden]; rewrite to_pos_pow; pose proof (digits_value_lt f F); lia).
  destruct T as [w f W F'|w f W F'|w f W F'].
  - assert (a = digits_value w). { inversion IW as [s1 z1 (_ & _ & U)|s1 z1 U|s1 z1 U]; subst; [reflexivity| |]; inversion W as [|? ? D _]; subst; unfold is_digit in D; lia. }
    subst a. pose proof (digits_value_lt w W). destruct (Z.ltb_spec (digits_value w) 0); [lia|]. reflexivity.
  - assert (a = digits_value w). { inversion IW as [s1 z1 U|s1 z1 (_ & _ & U)|s1 z1 U]; subst; [exfalso; eapply not_digit_plus, U|reflexivity]. }
    subst a. pose proof (digits_value_lt w W). destruct (Z.ltb_spec (digits_value w) 0); [lia|]. reflexivity.
  - assert (a = - digits_value w). { inversion IW as [s1 z1 U|s1 z1 U|s1 z1 (_ & _ & U)]; subst; [exfalso; eapply not_digit_minus, U|reflexivity]. }
    subst a. pose proof (digits_value_lt w W). destruct (Z.ltb_spec (- digits_value w) 0) as [N|N]; [rewrite Z.opp_involutive; reflexivity|].
    assert (Z : digits_value w = 0) by lia. rewrite Z in *. cbn [Z.opp].
    assert (frac_value f == 0)%Q.
    { destruct Q0 as [Q0|Q0].
      - apply Qle_antisym; [|exact FN]. rewrite Qplus_0_l in Q0. apply Qopp_le_compat in Q0. rewrite Qopp_involutive in Q0. exact Q0.
      - exfalso. rewrite Qplus_0_l in Q0. apply Qopp_le_compat in Q0. rewrite Qopp_involutive in Q0. apply (Qlt_not_le _ _ F1). exact Q0. }
    rewrite H1. reflexivity.
Qed.
Print Assumptions C45_bound_partial.
(** 0.05 is read as 0.5 *)
Theorem C45_leading_zero_refuted : exists w f d q, shexc_decimal w f = Some d /\ decimal_text w f q /\ (q < dec_value d)%Q.
Proof.
  exists (txt "0"), (txt "05"), {| mant := 5; scale := 1 |}, (inject_Z (digits_value (txt "0")) + frac_value (txt "05"))%Q.
  split; [reflexivity|]. split; [apply dt_none; repeat constructor; unfold is_digit; cbn; lia|reflexivity].
Qed.
Print Assumptions C45_leading_zero_refuted.
(** -0.5 is read as 0.5 *)
Theorem C45_sign_refuted : exists w f d q, shexc_decimal w f = Some d /\ decimal_text w f q /\ (q < 0)%Q /\ (0 < dec_value d)%Q.
Proof.
  exists (txt "-0"), (txt "5"), {| mant := 5; scale := 1 |}, (- (inject_Z (digits_value (txt "0")) + frac_value (txt "5")))%Q.
  split; [reflexivity|]. split; [|split; reflexivity]. apply (dt_minus (txt "0")); repeat constructor; unfold is_digit; cbn; lia.
Qed.
Print Assumptions C45_sign_refuted.
(** decimals that are not read: no digit before the point, more than 32 bits after it *)
Theorem C45_unread_refuted : exists w f q w' f' q', decimal_text w f q /\ decimal_text w' f' q' /\ shexc_decimal w f = None /\ shexc_decimal w' f' = None.
Proof.
  exists (txt ""), (txt "5"), (inject_Z (digits_value (txt "")) + frac_value (txt "5"))%Q,
    (txt "0"), (txt "12345678901"), (inject_Z (digits_value (txt "0")) + frac_value (txt "12345678901"))%Q.
  split; [apply dt_none; repeat constructor; unfold is_digit; cbn; lia|].
  split; [apply dt_none; repeat constructor; unfold is_digit; cbn; lia|]. split; reflexivity.
Qed.
Print Assumptions C45_unread_refuted.
Example C45_met : exists d, shexc_decimal (txt "-3") (txt "25") = Some d /\
  decimal_text (txt "-3") (txt "25") (- (inject_Z (digits_value (txt "3")) + frac_value (txt "25"))) /\ d = {| mant := -325; scale := 2 |}.
Proof. eexists. split; [reflexivity|]. split; [|reflexivity]. apply (dt_minus (txt "3")); repeat constructor; unfold is_digit; cbn; lia. Qed.

(** C46. The order of literals: comparing the other way round gives the opposite. *)
Theorem C46_antisymmetric L a b : dates_antisymmetric L -> lit_cmp L b a = opposite (lit_cmp L a b).
Proof. exact (lit_cmp_opp L a b). Qed.
Print Assumptions C46_antisymmetric.
(** Less is transitive among literals of data. Full statement: among all literals. *)
(** false is before true, whichever way they are written *)
Theorem C46_boolean L s s' a b x y : of_term L (OTyped s DBoolean) = Some x -> of_term L (OTyped s' DBoolean) = Some y -> xsd_boolean s a -> xsd_boolean s' b ->
  (lit_cmp L x y = Some Lt <-> a = false /\ b = true) /\ (lit_cmp L x y = Some Eq <-> a = b).
Proof.
  intros H H' A B. apply parse_bool_spec in A, B. cbn [of_term check_datatype] in H, H'. rewrite A in H. rewrite B in H'. injection H as <-. injection H' as <-.
  cbn [lit_cmp]. destruct a, b; cbn; split; split; intro K; try discriminate; try (destruct K; discriminate); auto.
Qed.
Print Assumptions C46_boolean.
Example C46_boolean_met : exists x y, of_term lib0 (OTyped (txt "0") DBoolean) = Some x /\ of_term lib0 (OTyped (txt "true") DBoolean) = Some y /\ lit_cmp lib0 x y = Some Lt.
Proof. eexists. eexists. split; [reflexivity|]. split; reflexivity. Qed.
Theorem C46_transitive_partial L a b c : (exists t, of_term L t = Some a) -> (exists t, of_term L t = Some b) -> (exists t, of_term L t = Some c) ->
  (forall x y z, cmp_date L x y = Some Lt -> cmp_date L y z = Some Lt -> cmp_date L x z = Some Lt) ->
  lit_cmp L a b = Some Lt -> lit_cmp L b c = Some Lt -> lit_cmp L a c = Some Lt.
Proof.
  intros [ta A] [tb B] [tc C]. apply lit_cmp_trans; eapply of_term_settled; eassumption.
Qed.
Print Assumptions C46_transitive_partial.
(** a cycle, with a literal of a schema whose text is not in the lexical space *)
Theorem C46_transitive_refuted : exists a b c, forall L, lit_cmp L a b = Some Lt /\ lit_cmp L b c = Some Lt /\ lit_cmp L c a = Some Lt.
Proof.
  exists (LTyped (txt "2") (DInt KInteger)), (LTyped (txt "10") (DInt KInteger)), (LTyped (txt "1x") (DInt KInteger)).
  intro L. split; [reflexivity|]. split; reflexivity.
Qed.
Print Assumptions C46_transitive_refuted.
(** equal literals are not less than each other; different literals may compare as Equal *)
Theorem C46_equal_partial L a b : (forall x y, eqb_date L x y = true -> cmp_date L x y <> Some Lt /\ cmp_date L x y <> Some Gt) ->
  match_literal L a b = true -> lit_cmp L a b <> Some Lt /\ lit_cmp L a b <> Some Gt.
Proof. exact (match_cmp L a b). Qed.
Print Assumptions C46_equal_partial.
Theorem C46_equal_refuted : exists a b, forall L, lit_cmp L a b = Some Eq /\ match_literal L a b = false.
Proof. exists (LString (txt "chat") (Some (txt "en"))), (LString (txt "chat") (Some (txt "fr"))). intro L. split; reflexivity. Qed.
Print Assumptions C46_equal_refuted.
(** the numbers of xsd:int are ordered as texts *)
Theorem C46_xsd_int_refuted : exists s s' z z', int_lexical s z /\ int_lexical s' z' /\ z < z' /\
  forall L a b, of_term L (OTyped s DXsdInt) = Some a -> of_term L (OTyped s' DXsdInt) = Some b -> lit_cmp L a b = Some Gt.
Proof.
  exists (txt "9"), (txt "10"), 9, 10. split; [apply il_none; split; [discriminate|]; split; [repeat constructor; unfold is_digit; cbn; lia|reflexivity]|].
  split; [apply il_none; split; [discriminate|]; split; [repeat constructor; unfold is_digit; cbn; lia|reflexivity]|]. split; [lia|].
  intros L a b A B. cbn in A, B. injection A as <-. injection B as <-. reflexivity.
Qed.
Print Assumptions C46_xsd_int_refuted.
Example C46_met : dates_antisymmetric lib0 /\ exists a b, of_term lib0 (OTyped (txt "9") (DInt KInteger)) = Some a /\
  of_term lib0 (OTyped (txt "+010") (DInt KInteger)) = Some b /\ lit_cmp lib0 a b = Some Lt.
Proof. split; [intros a b; reflexivity|]. eexists. eexists. split; [reflexivity|]. split; reflexivity. Qed.

(** C47. The order used for sorting nodes is consistent on comparable nodes. Full statement: on all nodes. *)
Theorem C47_order_partial L a b : dates_antisymmetric L -> obj_cmp L a b <> None -> obj_ord L b a = CompOpp (obj_ord L a b).
Proof.
  intros D C. assert (E : obj_cmp L b a = opposite (obj_cmp L a b)).
  { destruct a as [s|s|l], b as [s'|s'|l']; cbn [obj_cmp]; try reflexivity; try (cbn; f_equal; apply str_cmp_opp). apply lit_cmp_opp, D. }
  unfold obj_ord. rewrite E. destruct (obj_cmp L a b); [reflexivity|contradiction].
Qed.
Print Assumptions C47_order_partial.
(** each of two nodes is less than the other *)
Theorem C47_both_less_refuted : exists t u, forall L a b, of_term L t = Some a -> of_term L u = Some b ->
  obj_ord L (OLit a) (OLit b) = Lt /\ obj_ord L (OLit b) (OLit a) = Lt.
Proof.
  exists (OSimple (txt "x")), (OTyped (txt "1") (DInt KInteger)). intros L a b A B. cbn in A, B. injection A as <-. injection B as <-. split; reflexivity.
Qed.
Print Assumptions C47_both_less_refuted.
(** a node that is less than itself *)
Theorem C47_self_refuted : exists t, forall L a, of_term L t = Some a -> obj_ord L (OLit a) (OLit a) = Lt.
Proof. exists (OTyped (txt "x") (DInt KInteger)). intros L a A. cbn in A. injection A as <-. reflexivity. Qed.
Print Assumptions C47_self_refuted.
Example C47_met : obj_ord lib0 (OIri (txt "a")) (OIri (txt "b")) = Lt /\ obj_cmp lib0 (OIri (txt "a")) (OIri (txt "b")) <> None.
Proof. split; [reflexivity|discriminate]. Qed.

(** C48. SHACL value ranges: for two integers, decimals or floats that are represented by decimals, the
    comparison of the numbers. Full statement: for all numeric literals. *)
Theorem C48_range_partial L s d s' d' l b n m : of_term L (OTyped s d) = Some l -> of_term L (OTyped s' d') = Some b ->
  match d with DInt KInteger | DDecimal | DDouble | DFloat => True | _ => False end ->
  match d' with DInt KInteger | DDecimal | DDouble | DFloat => True | _ => False end ->
  check_datatype L s d = LNum n -> check_datatype L s' d' = LNum m ->
  represented (f64_dec L) (f32_dec L) n -> represented (f64_dec L) (f32_dec L) m ->
  (shacl_range L is_ge l b = true <-> xle (value m) (value n)) /\ (shacl_range L is_gt l b = true <-> xlt (value m) (value n)) /\
  (shacl_range L is_le l b = true <-> xle (value n) (value m)) /\ (shacl_range L is_lt l b = true <-> xlt (value n) (value m)).
Proof.
  intros H H' D D' C C' (x & X & VX) (y & Y & VY).
  assert (E : l = LTyped s d) by (cbn [of_term] in H; destruct d as [[]| | | | | | | | |]; try contradiction; rewrite C in H; injection H as <-; reflexivity).
  assert (E' : b = LTyped s' d') by (cbn [of_term] in H'; destruct d' as [[]| | | | | | | | |]; try contradiction; rewrite C' in H'; injection H' as <-; reflexivity).
  subst. unfold shacl_range. rewrite typed_cmp, C, C'. cbn [number]. unfold partial_cmp. rewrite X, Y.
  destruct (value n) as [| |p], (value m) as [| |q]; cbn [xeq] in VX, VY; try contradiction.
  unfold xle. cbn [xlt xeq]. rewrite <- VX, <- VY. rewrite <- qcmp_dec.
  destruct (Qcompare_spec (dec_value x) (dec_value y)) as [Q|Q|Q]; cbn [is_ge is_gt is_le is_lt].
  - split; [split; [right; symmetry; exact Q|reflexivity]|]. split; [split; [discriminate|intro K; rewrite Q in K; exfalso; eapply Qlt_irrefl, K]|].
    split; [split; [right; exact Q|reflexivity]|]. split; [discriminate|intro K; rewrite Q in K; exfalso; eapply Qlt_irrefl, K].
  - split; [split; [discriminate|intros [K|K]; exfalso; [eapply Qlt_irrefl, Qlt_trans; eassumption|rewrite K in Q; eapply Qlt_irrefl, Q]]|].
    split; [split; [discriminate|intro K; exfalso; eapply Qlt_irrefl, Qlt_trans; eassumption]|]. split; [split; [left; exact Q|reflexivity]|]. split; [intros _; exact Q|reflexivity].
  - split; [split; [left; exact Q|reflexivity]|]. split; [split; [intros _; exact Q|reflexivity]|].
    split; [split; [discriminate|intros [K|K]; exfalso; [eapply Qlt_irrefl, Qlt_trans; eassumption|rewrite K in Q; eapply Qlt_irrefl, Q]]|].
    split; [discriminate|intro K; exfalso; eapply Qlt_irrefl, Qlt_trans; eassumption].
Qed.
Print Assumptions C48_range_partial.
(** a value of another integer type violates every range with an xsd:integer bound *)
Theorem C48_derived_refuted : exists s s' z z', xsd_int KByte s z /\ xsd_int KInteger s' z' /\ z' < z /\
  forall L l b, of_term L (OTyped s (DInt KByte)) = Some l -> of_term L (OTyped s' (DInt KInteger)) = Some b ->
    shacl_range L is_ge l b = false /\ shacl_range L is_gt l b = false.
Proof.
  exists (txt "5"), (txt "0"), 5, 0.
  assert (D : forall c, (48 <= c <= 57)%N -> forall z, z = Z.of_N c - 48 -> int_lexical [c] z).
  { intros c C z ->. apply il_none. split; [discriminate|]. split; [repeat constructor; unfold is_digit; lia|]. unfold digits_value. cbn [fold_left]. lia. }
  split; [split; [apply (D 53%N); lia|cbn; lia]|]. split; [split; [apply (D 48%N); lia|exact Logic.I]|]. split; [lia|].
  intros L l b A B. cbn in A, B. injection A as <-. injection B as <-. split; reflexivity.
Qed.
Print Assumptions C48_derived_refuted.
(** a string with a language tag satisfies a range with a plain string as bound, although they are not comparable *)
Theorem C48_language_refuted : exists s g s', forall L l b, of_term L (OLang s g) = Some l -> of_term L (OSimple s') = Some b ->
  shacl_range L is_le l b = true.
Proof.
  exists (txt "a"), (txt "en"), (txt "b"). intros L l b A B. apply of_lang in A as (x & _ & ->). apply of_simple in B. subst. reflexivity.
Qed.
Print Assumptions C48_language_refuted.
(** less_than.rs line 46 compares nodes: an IRI is less than every literal *)
Theorem C48_less_than_refuted : exists i t, forall L l, of_term L t = Some l -> obj_cmp L (OIri i) (OLit l) = Some Lt.
Proof. exists (txt "i"), (OSimple (txt "x")). intros L l _. reflexivity. Qed.
Print Assumptions C48_less_than_refuted.
Example C48_met : exists l b, of_term lib0 (OTyped (txt "12") (DInt KInteger)) = Some l /\ of_term lib0 (OTyped (txt "7") (DInt KInteger)) = Some b /\
  shacl_range lib0 is_gt l b = true /\ shacl_range lib0 is_le l b = false.
Proof. eexists. eexists. split; [reflexivity|]. split; [reflexivity|]. split; reflexivity. Qed.
