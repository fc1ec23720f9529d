(* What has been read can be written and read again. *)

From Coq Require Import List String Ascii NArith ZArith Bool Lia Arith Sorting.Sorted Decimal DecimalString.
From Verif Require Import SjModel SjSpec SjText SjLemmas SjNode SjTree.
Import ListNotations.
Open Scope string_scope.

Local Arguments mem : simpl never.

(* ------------------------------------------------------------------ *)
(* Members                                                              *)

Lemma field_in {X A : Type} k (rd : X -> res A) ms a :
  field k rd ms = Ok (Some a) -> exists x, In (k, x) ms /\ rd x = Ok a.
Proof.
  induction ms as [|[k' x] ms IH]; cbn; [discriminate|].
  destruct (String.eqb_spec k k') as [->|H].
  - destruct (existsb _ ms); [discriminate|]. intros E. apply map_ok in E as (b & Hb & E).
    injection E as ->. exists x. auto.
  - intros E. apply IH in E as (y & Hy & E). exists y. auto.
Qed.

Lemma field_opt {X A : Type} (P : A -> Prop) k (rd : X -> res A) ms o :
  (forall x a, rd x = Ok a -> P a) -> field k rd ms = Ok o -> ok_opt P o.
Proof.
  intros H E. destruct o as [a|]; [|exact Logic.I]. apply field_in in E as (x & _ & E).
  exact (H x a E).
Qed.

Lemma needed_ok {A : Type} (x : res (option A)) a : needed x = Ok a -> x = Ok (Some a).
Proof.
  unfold needed. intros H. apply bind_ok in H as (o & -> & H). apply of_opt_ok in H. now subst.
Qed.

Lemma ofield_in {X A : Type} k (raw : X -> json) (rd : X -> res A) ms a :
  ofield k raw rd ms = Ok (Some a) -> exists x, In (k, x) ms /\ rd x = Ok a.
Proof.
  unfold ofield. intros H. apply bind_ok in H as (o & H & E). destruct o as [[b|]|]; try discriminate.
  injection E as ->. apply field_in in H as (x & Hx & H). exists x. split; [exact Hx|].
  destruct (rd x) as [b| |]; destruct (raw x); try discriminate H; injection H as ->; reflexivity.
Qed.

Lemma ofield_opt {X A : Type} (P : A -> Prop) k (raw : X -> json) (rd : X -> res A) ms o :
  (forall x a, rd x = Ok a -> P a) -> ofield k raw rd ms = Ok o -> ok_opt P o.
Proof.
  intros H E. destruct o as [a|]; [|exact Logic.I]. apply ofield_in in E as (x & _ & E).
  exact (H x a E).
Qed.

Lemma list_of {A : Type} (P : A -> Prop) (rd : json -> res A) j l :
  (forall x a, rd x = Ok a -> P a) -> r_list rd j = Ok l -> Forall P l.
Proof.
  intros H. destruct j; try discriminate. cbn. rewrite all_ok. intros E.
  remember (map rd l0) as xs eqn:Ex. revert l0 Ex. induction E as [|x a xs l Hx E IH]; intros l0 Ex.
  - constructor.
  - destruct l0 as [|y l0]; [discriminate|]. cbn in Ex. injection Ex as -> ->.
    constructor; [exact (H y a Hx)|]. exact (IH l0 eq_refl).
Qed.

Section Again.
Context {L : lib}.
Variable Hl : sound_lib.

(* ------------------------------------------------------------------ *)
(* Names                                                                *)

Lemma absolute_got s i : iri_from_str s = Ok i -> ok_absolute i.
Proof.
  unfold iri_from_str. destruct (iri_ok s) eqn:E; [|discriminate]. intros H. now injection H as <-.
Qed.

Lemma visit_got s i : iri_visit s = Ok i -> ok_name i.
Proof.
  unfold iri_visit. destruct (iri_ok s) eqn:E.
  - intros H. now injection H as <-.
  - destruct (split_colon s) as [[p l]|] eqn:Es; [|discriminate]. intros H. injection H as <-.
    apply split_some in Es as [-> Hp]. now split.
Qed.

Lemma name_got j i : r_iri j = Ok i -> ok_name i.
Proof. unfold r_iri. intros H. apply bind_ok in H as (s & _ & H). exact (visit_got s i H). Qed.

Lemma not_angled s : iri_ok s = true -> ~ angled s.
Proof.
  intros H (a & b & c & E & _). apply (iri_no_angle Hl s H). rewrite E. apply has_app. right.
  now left.
Qed.

Lemma blank_some s b : blank s = Some b -> exists a r, s = a ++ "_:" ++ b ++ r /\ ~ has newline b.
Proof.
  induction s as [|c s IH]; [discriminate|]. intros H.
  assert ((exists s', s = String ":" s' /\ c = "_"%char /\ b = to_eol s') \/ blank s = Some b) as [H'|H'].
  { cbn [blank] in H. destruct (Ascii.eqb_spec c "_") as [->|Hc]; [|now right].
    destruct s as [|d s']; [discriminate|].
    destruct (Ascii.eqb_spec d ":") as [->|Hd]; [|now right].
    left. exists s'. injection H as <-. auto. }
  - destruct H' as (s' & -> & -> & ->). destruct (to_eol_spec s') as (r & E & Hn).
    exists "", r. split; [|exact Hn]. cbn. now rewrite E at 1.
  - destruct (IH H') as (a & r & -> & Hn). exists (String c a), r. now split.
Qed.

Lemma label_got s l : label_from_str s = Ok l -> clean [l] -> ok_label l.
Proof.
  unfold label_from_str, clean. destruct (angle s) as [t|] eqn:Ea.
  - destruct (iri_ok t) eqn:E; [|discriminate]. intros H Hc. injection H as <-.
    split; [exact E|]. split; [now apply not_angled|]. apply Hc. now left.
  - destruct (blank s) as [b|] eqn:Eb.
    + intros H _. injection H as <-. apply angle_none in Ea.
      apply blank_some in Eb as (a & r & -> & Hn). split; [|exact Hn].
      intros (x & y & z & -> & Hy). apply Ea. exists (a ++ "_:" ++ x), y, (z ++ r).
      split; [|exact Hy]. now rewrite !sapp_assoc.
    + destruct (iri_ok s) eqn:E; [|discriminate]. intros H Hc. injection H as <-.
      split; [exact E|]. split; [now apply not_angled|]. apply Hc. now left.
Qed.

Lemma unescaped_part a b c : unescaped (a ++ b ++ c) -> unescaped b.
Proof. intros H x Hx. apply H. apply has_app. right. apply has_app. now left. Qed.

Lemma id_got j l : r_label j = Ok l -> clean [l] -> ok_id l.
Proof.
  unfold r_label, r_borrowed. intros H Hc. apply bind_ok in H as (s & Hs & H).
  apply bind_ok in Hs as (s' & _ & Hs). destruct (plain s') eqn:Hp; [|discriminate].
  injection Hs as ->. apply plain_spec in Hp. split; [exact (label_got s l H Hc)|].
  unfold label_from_str in H. destruct (angle s) as [t|] eqn:Ea.
  - destruct (iri_ok t) eqn:E; [|discriminate]. injection H as <-. now apply (iri_unescaped Hl).
  - destruct (blank s) as [b|] eqn:Eb.
    + injection H as <-. apply blank_some in Eb as (a & r & -> & _).
      apply (unescaped_part (a ++ "_:") b r). now rewrite sapp_assoc.
    + destruct (iri_ok s) eqn:E; [|discriminate]. now injection H as <-.
Qed.

Lemma tlabel_got s l : tlabel_from_str s = Ok l -> ok_tlabel l.
Proof.
  unfold tlabel_from_str. intros H. apply map_ok in H as (i & H & <-). apply absolute_got in H.
  destruct i; [exact H|contradiction].
Qed.

Lemma tid_got j l : r_tlabel j = Ok l -> ok_tid l.
Proof.
  unfold r_tlabel. intros H. apply bind_ok in H as (s & _ & H). apply tlabel_got in H.
  destruct l as [[s'|p q]|b]; cbn in *; try contradiction. split; [exact H|].
  now apply (iri_unescaped Hl).
Qed.

(* ------------------------------------------------------------------ *)
(* Values                                                               *)

Lemma int_got s z : parse_int s = Some z -> (- 2 ^ 63 <= z < 2 ^ 63)%Z.
Proof.
  unfold parse_int. set (d := match s with String _ _ => _ | _ => _ end). clearbody d.
  destruct (NilZero.int_of_string d) as [i|]; [|discriminate]. cbn zeta.
  destruct (Z.leb_spec (- 2 ^ 63) (Z.of_int i)); [|discriminate].
  destruct (Z.ltb_spec (Z.of_int i) (2 ^ 63)); [|discriminate].
  intros H'. injection H' as <-. lia.
Qed.

Lemma literal_got t v g h l names :
  (forall s, t = Some s -> ~ In s builtin -> ~ In s names) ->
  r_literal t v g h = Ok l -> ok_lit names l.
Proof.
  intros Hn. unfold r_literal. destruct t as [t|].
  - destruct (String.eqb_spec t (xsd "boolean")) as [->|H1].
    { intros H. apply bind_ok in H as (s & _ & H). destruct (String.eqb s "false").
      - injection H as <-. exact Logic.I.
      - destruct (String.eqb s "true"); [|discriminate]. injection H as <-. exact Logic.I. }
    destruct (String.eqb_spec t (xsd "decimal")) as [->|H2].
    { intros H. apply bind_ok in H as (s & _ & H). apply bind_ok in H as (d & Hd & H).
      injection H as <-. apply of_opt_ok in Hd. exact (dec_again Hl s d Hd). }
    destruct (String.eqb_spec t (xsd "double")) as [->|H3].
    { intros H. apply bind_ok in H as (s & _ & H). apply bind_ok in H as (d & Hd & H).
      injection H as <-. apply of_opt_ok in Hd. exact (dbl_again Hl s d Hd). }
    destruct (String.eqb_spec t (xsd "integer")) as [->|H4].
    { intros H. apply bind_ok in H as (s & _ & H). apply bind_ok in H as (d & Hd & H).
      injection H as <-. apply of_opt_ok in Hd. exact (int_got s d Hd). }
    intros H. apply bind_ok in H as (dt & Hdt & H). apply bind_ok in H as (s & _ & H).
    destruct h as [h|].
    + apply bind_ok in H as (x & Hx & H). injection H as <-. apply of_opt_ok in Hx.
      exact (tag_again Hl h x Hx).
    + injection H as <-. unfold iri_from_str in Hdt. destruct (iri_ok t) eqn:Ei; [|discriminate].
      injection Hdt as <-. split; [exact Ei|]. apply Hn; [reflexivity|].
      cbn in *. intros [E|[E|[E|[E|[]]]]]; congruence.
  - intros H. apply bind_ok in H as (s & _ & H). destruct g as [g|].
    + apply bind_ok in H as (x & Hx & H). injection H as <-. apply of_opt_ok in Hx.
      exact (tag_again Hl g x Hx).
    + injection H as <-. exact Logic.I.
Qed.

Lemma obj_got j o : r_obj j = Ok o -> ok_obj builtin o.
Proof.
  destruct j; try discriminate; unfold r_obj; intros H.
  - apply map_ok in H as (i & H & <-). exact (absolute_got s i H).
  - apply bind_ok in H as (u & _ & H). apply bind_ok in H as (t & _ & H).
    apply bind_ok in H as (v & _ & H). apply bind_ok in H as (l & _ & H).
    apply bind_ok in H as (g & _ & H). apply map_ok in H as (x & H & <-).
    cbn. apply (literal_got t v l g x builtin); auto.
Qed.

Lemma exc_got j x : r_exc j = Ok x ->
  match x with
  | XIri i => ok_name i
  | XLit s => no_name s
  | XLang l => ok_lang_exc (Stem l)
  | XText _ => True
  end.
Proof.
  destruct j; try discriminate; unfold r_exc; intros H.
  - now injection H as <-.
  - apply bind_ok in H as (u & _ & H). apply bind_ok in H as (t & _ & H).
    apply bind_ok in H as (s & _ & H).
    destruct (String.eqb t "LiteralStem").
    { destruct (no_name_dec s) as [Hs|Hs].
      - rewrite visit_no in H by exact Hs. injection H as <-. exact Hs.
      - apply visit_yes in Hs as (i & Hi). rewrite Hi in H. discriminate. }
    destruct (String.eqb t "LanguageStem").
    { destruct (no_name_dec s) as [Hs|Hs].
      - rewrite visit_no in H by exact Hs. apply bind_ok in H as (l & Hn & H). injection H as <-.
        apply of_opt_ok in Hn. destruct (tag_text Hl s l Hn) as [_ Hc]. cbn. split.
        + split; [|exact Hc]. destruct (iri_ok l) eqn:Ei; [|reflexivity].
          exfalso. apply Hc. exact (iri_colon Hl l Ei).
        + exact (tag_again Hl s l Hn).
      - apply visit_yes in Hs as (i & Hi). rewrite Hi in H. discriminate. }
    destruct (String.eqb t "IriStem"); [|discriminate].
    destruct (iri_visit s) as [i| |] eqn:Ei; try discriminate. injection H as <-.
    exact (visit_got s i Ei).
Qed.

Lemma excs_got {A : Type} (read : rawexc -> res (exc A)) (P : exc A -> Prop) j xs es :
  (forall y x e, r_exc y = Ok x -> read x = Ok e -> P e) ->
  r_list r_exc j = Ok xs -> all (map read xs) = Ok es -> Forall P es.
Proof.
  intros H Hj He. destruct j; try discriminate. cbn in Hj.
  assert (all (map (exc_round read) l) = Ok es) as E by (apply two_passes; now exists xs).
  apply (list_of P (exc_round read) (JArr l) es); [|exact E].
  intros y e Hy. unfold exc_round in Hy. apply bind_ok in Hy as (x & Hx & Hy).
  exact (H y x e Hx Hy).
Qed.

Lemma iri_exc_got y x e : r_exc y = Ok x -> iri_exc x = Ok e -> ok_iri_exc e.
Proof.
  intros Hy Hx. apply exc_got in Hy. destruct x as [i|s|s|s]; try discriminate.
  - injection Hx as <-. exact Hy.
  - apply bind_ok in Hx as (i & Hi & Hx). injection Hx as <-. exact (absolute_got s i Hi).
Qed.

Lemma lit_exc_got y x e : r_exc y = Ok x -> lit_exc x = Ok e -> ok_lit_exc e.
Proof.
  intros Hy Hx. apply exc_got in Hy. destruct x as [i|s|s|s]; try discriminate.
  - injection Hx as <-. exact Hy.
  - injection Hx as <-. exact Logic.I.
Qed.

Lemma lang_exc_got y x e : r_exc y = Ok x -> lang_exc x = Ok e -> ok_lang_exc e.
Proof.
  intros Hy Hx. apply exc_got in Hy. destruct x as [i|s|s|s]; try discriminate.
  - injection Hx as <-. exact Hy.
  - apply bind_ok in Hx as (i & Hi & Hx). injection Hx as <-. apply of_opt_ok in Hi.
    exact (tag_again Hl s i Hi).
Qed.

Lemma lang_stem_got s l : lang_new s = Some l -> ok_lang_stem l.
Proof.
  intros H. split; [exact (proj1 (tag_text Hl s l H))|exact (tag_again Hl s l H)].
Qed.

Lemma value_got j v : r_value j = Ok v -> ok_value v.
Proof.
  destruct j; try discriminate; unfold r_value; intros H.
  - apply map_ok in H as (i & H & <-). exact (absolute_got s i H).
  - apply bind_ok in H as (u & _ & H). apply bind_ok in H as (t & _ & H).
    apply bind_ok in H as (stem & _ & H). apply bind_ok in H as (w & _ & H).
    apply bind_ok in H as (l & _ & H). apply bind_ok in H as (g & _ & H).
    apply bind_ok in H as (es & Hes & H). cbn zeta in H.
    destruct t as [t|].
    2:{ apply map_ok in H as (x & H & <-). cbn [ok_value ok_obj].
        apply (literal_got None w l g x); [discriminate|exact H]. }
    destruct (String.eqb_spec t "LiteralStemRange") as [->|N1].
    { apply bind_ok in H as (st & _ & H). destruct es as [es|]; [|discriminate].
      apply bind_ok in H as (es' & He & H). injection H as <-. cbn [ok_value ok_some].
      apply field_in in Hes as (y & _ & Hy). exact (excs_got lit_exc _ y es es' lit_exc_got Hy He). }
    destruct (String.eqb_spec t "LanguageStemRange") as [->|N2].
    { apply bind_ok in H as (st & _ & H). apply bind_ok in H as (xs & Hx & H).
      apply of_opt_ok in Hx as ->. apply bind_ok in H as (es' & He & H).
      apply bind_ok in H as (st' & Hs & H). injection H as <-. split.
      - unfold lang_or_wild in Hs. destruct st as [st|].
        + destruct (String.eqb st ""); [injection Hs as <-; exact Logic.I|].
          apply bind_ok in Hs as (x & Hx & Hs). injection Hs as <-. apply of_opt_ok in Hx.
          exact (lang_stem_got st x Hx).
        + injection Hs as <-. exact Logic.I.
      - apply field_in in Hes as (y & _ & Hy). exact (excs_got lang_exc _ y xs es' lang_exc_got Hy He). }
    destruct (String.eqb_spec t "IriStemRange") as [->|N3].
    { apply bind_ok in H as (st & _ & H). apply bind_ok in H as (xs & Hx & H).
      apply of_opt_ok in Hx as ->. apply bind_ok in H as (es' & He & H).
      apply bind_ok in H as (st' & Hs & H). injection H as <-. split.
      - unfold iri_or_wild in Hs. destruct st as [st|].
        + apply map_ok in Hs as (x & Hx & <-). exact (absolute_got st x Hx).
        + injection Hs as <-. exact Logic.I.
      - apply field_in in Hes as (y & _ & Hy). exact (excs_got iri_exc _ y xs es' iri_exc_got Hy He). }
    destruct (String.eqb_spec t "LiteralStem") as [->|N4].
    { apply bind_ok in H as (st & _ & H). apply bind_ok in H as (st' & _ & H). now injection H as <-. }
    destruct (String.eqb_spec t "LanguageStem") as [->|N5].
    { apply bind_ok in H as (st & _ & H). apply bind_ok in H as (st' & _ & H).
      destruct (String.eqb st' ""); [now injection H as <-|].
      apply bind_ok in H as (x & Hx & H). injection H as <-. apply of_opt_ok in Hx.
      exact (lang_stem_got st' x Hx). }
    destruct (String.eqb_spec t "Language") as [->|N6].
    { apply bind_ok in H as (g' & _ & H). apply bind_ok in H as (x & Hx & H). injection H as <-.
      apply of_opt_ok in Hx. exact (tag_again Hl g' x Hx). }
    destruct (String.eqb_spec t "IriStem") as [->|N7].
    { apply bind_ok in H as (st & _ & H). apply bind_ok in H as (st' & _ & H).
      apply map_ok in H as (x & Hx & <-). exact (absolute_got st' x Hx). }
    apply map_ok in H as (x & H & <-). cbn [ok_value ok_obj].
    apply (literal_got (Some t) w l g x); [|exact H]. intros s E Hb. injection E as <-.
    intros Hin. apply in_app_or in Hin as [Hin|Hin]; [contradiction|].
    cbn in Hin. intuition congruence.
Qed.

(* ------------------------------------------------------------------ *)
(* Node constraints                                                     *)

Lemma usize_range j n : r_usize j = Ok n -> (n < 2 ^ 64)%N.
Proof.
  destruct j; try discriminate. unfold r_usize. destruct (Z.leb_spec 0 z); [|discriminate].
  destruct (Z.ltb_spec z (2 ^ 64)); [|discriminate]. intros E. injection E as <-. lia.
Qed.

Lemma maybe_ok {A : Type} (P : A -> Prop) (C : A -> facet) o :
  (forall a, P a -> ok_facet (C a)) -> ok_opt P o -> Forall ok_facet (maybe C o).
Proof. intros H. destruct o; cbn; [constructor; auto|constructor]. Qed.

Lemma facets_got ms o : r_facets ms = Ok o -> ok_opt ok_facets o.
Proof.
  intros H. unfold r_facets in H.
  apply bind_ok in H as (p & Ep & H). apply bind_ok in H as (fl & Efl & H).
  apply bind_ok in H as (o1 & E1 & H). apply bind_ok in H as (o2 & E2 & H).
  apply bind_ok in H as (o3 & E3 & H). apply bind_ok in H as (o4 & E4 & H).
  apply bind_ok in H as (o5 & E5 & H). apply bind_ok in H as (o6 & E6 & H).
  apply bind_ok in H as (o7 & E7 & H). apply bind_ok in H as (o8 & E8 & H).
  apply bind_ok in H as (o9 & E9 & H). cbn zeta in H.
  fold (collect p fl o1 o2 o3 o4 o5 o6 o7 o8 o9) in H.
  destruct (is_nil (collect p fl o1 o2 o3 o4 o5 o6 o7 o8 o9)) eqn:En; injection H as <-;
    [exact Logic.I|].
  cbn. split; [intros E; rewrite E in En; discriminate|]. split; [apply collect_sorted|].
  assert (forall j n, read_fnum j = Ok n -> read_fnum (write_fnum n) = Ok n) as Hf by apply (fnum_again Hl).
  apply (field_opt _ _ _ _ _ usize_range) in E1. apply (field_opt _ _ _ _ _ usize_range) in E2.
  apply (field_opt _ _ _ _ _ usize_range) in E3. apply (field_opt _ _ _ _ _ usize_range) in E8.
  apply (field_opt _ _ _ _ _ usize_range) in E9.
  apply (field_opt _ _ _ _ _ Hf) in E4. apply (field_opt _ _ _ _ _ Hf) in E5.
  apply (field_opt _ _ _ _ _ Hf) in E6. apply (field_opt _ _ _ _ _ Hf) in E7.
  unfold collect. repeat (apply Forall_app; split); try (eapply maybe_ok; [|eassumption]; auto; fail).
  destruct p; repeat constructor.
Qed.

Lemma nodec_got ms n : r_nodec ms = Ok n -> ok_nodec n.
Proof.
  unfold r_nodec. intros H. apply bind_ok in H as (u & _ & H). apply bind_ok in H as (k & _ & H).
  apply bind_ok in H as (d & Hd & H). apply bind_ok in H as (v & Hv & H).
  apply bind_ok in H as (f & Hf & H). injection H as <-. unfold ok_nodec.
  cbn [n_datatype n_values n_facets]. split; [exact (field_opt _ _ _ _ _ name_got Hd)|].
  split; [|exact (facets_got _ _ Hf)].
  apply (field_opt (Forall ok_value) _ _ _ _) in Hv; [exact Hv|].
  intros x a Ha. exact (list_of _ _ _ _ value_got Ha).
Qed.

Lemma act_got j a : r_act j = Ok a -> ok_act a.
Proof.
  destruct j; try discriminate. unfold r_act. intros H. apply bind_ok in H as (n & Hn & H).
  apply bind_ok in H as (c & _ & H). injection H as <-. apply needed_ok in Hn.
  exact (field_opt _ _ _ _ _ name_got Hn).
Qed.

Lemma ann_got j a : r_ann j = Ok a -> ok_ann a.
Proof.
  destruct j; try discriminate. unfold r_ann. intros H. apply bind_ok in H as (u & _ & H).
  apply bind_ok in H as (t & _ & H). apply bind_ok in H as (p & Hp & H).
  apply bind_ok in H as (o & Ho & H). apply bind_ok in H as (u' & _ & H).
  apply bind_ok in H as (p' & Ep & H). apply bind_ok in H as (o' & Eo & H).
  apply of_opt_ok in Ep as ->. apply of_opt_ok in Eo as ->. injection H as <-.
  split; [exact (field_opt _ _ _ _ _ name_got Hp)|exact (field_opt _ _ _ _ _ obj_got Ho)].
Qed.

Lemma acts_got j l : r_list r_act j = Ok l -> Forall ok_act l.
Proof. apply list_of, act_got. Qed.

Lemma anns_got j l : r_list r_ann j = Ok l -> Forall ok_ann l.
Proof. apply list_of, ann_got. Qed.

Lemma i32_got j z : r_i32 j = Ok z -> ok_int z.
Proof.
  destruct j; try discriminate. unfold r_i32. destruct (Z.leb_spec (- 2 ^ 31) z0); [|discriminate].
  destruct (Z.ltb_spec z0 (2 ^ 31)); [|discriminate]. intros E. injection E as <-. unfold ok_int. lia.
Qed.

(* ------------------------------------------------------------------ *)
(* Expressions                                                          *)

Lemma clean_app a b : clean (a ++ b) -> clean a /\ clean b.
Proof. intros H. split; intros s Hs; apply H, in_or_app; auto. Qed.

Lemma clean_in ls l : clean ls -> In l ls -> clean [l].
Proof. intros H Hi s [->|[]]. now apply H. Qed.

Lemma clean_flat {A : Type} (f : A -> list label) l : clean (flat_map f l) -> Forall (fun a => clean (f a)) l.
Proof.
  intros H. apply Forall_forall. intros a Ha s Hs. apply H. apply in_flat_map. now exists a.
Qed.

Definition again (j : json) : Prop :=
  (forall e, r_sexpr j = Ok e -> clean (labels e) -> ok_sexpr e) /\
  (forall e, r_texpr j = Ok e -> clean (tlabels e) -> ok_texpr e).

(* A value and the values of an array. *)
Definition deep (j : json) : Prop :=
  again j /\ match j with JArr l => Forall again l | _ => True end.

Lemma each_got {A : Type} (rd : json -> res A) (f : A -> list label) (P : A -> Prop) js l :
  Forall (fun j => forall e, rd j = Ok e -> clean (f e) -> P e) js ->
  all (map rd js) = Ok l -> clean (flat_map f l) -> Forall P l.
Proof.
  intros Hj. rewrite all_ok. revert l. induction Hj as [|j js Hj Hjs IH]; intros l H Hc.
  - inversion H. constructor.
  - cbn in H. inversion H as [|? a ? l' Ha Hl']; subst. cbn in Hc. apply clean_app in Hc as [H1 H2].
    constructor; [exact (Hj a Ha H1)|exact (IH l' Hl' H2)].
Qed.

Lemma untagged_in m ms : In m (untagged ms) -> In m ms.
Proof. unfold untagged. rewrite filter_In. tauto. Qed.

Lemma obj_again ms : Forall (fun m => deep (snd m)) ms -> again (JObj ms).
Proof.
  intros Hm. rewrite Forall_forall in Hm.
  assert (forall k j, In (k, j) (untagged ms) -> deep j) as Hd.
  { intros k j Hin. exact (Hm (k, j) (untagged_in _ _ Hin)). } clear Hm.
  assert (forall k l, needed (field k (r_list r_sexpr) (untagged ms)) = Ok l ->
            clean (flat_map labels l) -> ok_sexpr (SOr l)) as Hss.
  { intros k l H Hc. apply needed_ok, field_in in H as (j & Hin & H). apply Hd in Hin as [_ Hin].
    destruct j; try discriminate. apply ok_or. refine (each_got r_sexpr labels _ _ _ _ H Hc).
    eapply Forall_impl; [|exact Hin]. intros j Hj. exact (proj1 Hj). }
  split; intros e H Hc.
  - rewrite r_sexpr_obj in H. unfold s_obj in H. apply bind_ok in H as (t & _ & H). cbn zeta in H.
    destruct (String.eqb t "ShapeOr").
    { apply map_ok in H as (l & H & <-). exact (Hss _ _ H Hc). }
    destruct (String.eqb t "ShapeAnd").
    { apply map_ok in H as (l & H & <-). exact (Hss _ _ H Hc). }
    destruct (String.eqb t "ShapeNot").
    { apply map_ok in H as (e' & H & <-). apply needed_ok, field_in in H as (j & Hin & H).
      apply Hd in Hin as [[Hin _] _]. exact (Hin e' H Hc). }
    destruct (String.eqb t "NodeConstraint").
    { apply map_ok in H as (n & H & <-). exact (nodec_got _ _ H). }
    destruct (String.eqb t "Shape").
    { apply bind_ok in H as (x1 & H1 & H). apply bind_ok in H as (x2 & H2 & H).
      apply bind_ok in H as (x3 & H3 & H). apply bind_ok in H as (x4 & H4 & H).
      apply bind_ok in H as (x5 & H5 & H). apply bind_ok in H as (x6 & H6 & H). injection H as <-.
      cbn [labels] in Hc. apply clean_app in Hc as [Hc1 Hc2]. cbn [ok_sexpr].
      split. { refine (ofield_opt (Forall ok_name) _ _ _ _ _ _ H2). intros y a Ha. exact (list_of _ _ _ _ name_got Ha). }
      split. { destruct x3 as [e|]; [|exact Logic.I]. apply ofield_in in H3 as (j & Hin & H3).
               apply Hd in Hin as [[_ Hin] _]. exact (Hin e H3 Hc1). }
      split; [exact (ofield_opt _ _ _ _ _ _ acts_got H4)|].
      split; [exact (ofield_opt _ _ _ _ _ _ anns_got H5)|].
      destruct x6 as [ls|]; [|exact Logic.I]. apply ofield_in in H6 as (j & Hin & H6).
      destruct j; try discriminate. cbn in Hc2 |- *.
      refine (each_got r_label (fun l => [l]) _ _ _ _ H6 _).
      - apply Forall_forall. intros j _ l' Hl'. exact (id_got j l' Hl').
      - intros s Hs. apply in_flat_map in Hs as (x & Hx & [->|[]]). now apply Hc2. }
    destruct (String.eqb t "ShapeExternal"); [|discriminate]. injection H as <-. exact Logic.I.
  - rewrite r_texpr_obj in H. unfold t_obj in H. apply bind_ok in H as (t & _ & H). cbn zeta in H.
    assert (forall make id l mn mx acts anns,
      t_group (untagged ms) make = Ok (make id l mn mx acts anns) -> True) as _ by auto.
    assert (forall make e, t_group (untagged ms) make = Ok e ->
      exists id l mn mx acts anns, e = make id l mn mx acts anns /\
        (clean (flat_map tlabels l) -> ok_texpr (TEach id l mn mx acts anns))) as Hg.
    { clear H e Hc. intros make e H. unfold t_group in H.
      apply bind_ok in H as (x1 & H1 & H). apply bind_ok in H as (x2 & H2 & H).
      apply bind_ok in H as (x3 & H3 & H). apply bind_ok in H as (x4 & H4 & H).
      apply bind_ok in H as (x5 & H5 & H). apply bind_ok in H as (x6 & H6 & H). injection H as <-.
      exists x1, x2, x3, x4, x5, x6. split; [reflexivity|]. intros Hc. apply ok_each.
      split; [exact (ofield_opt _ _ _ _ _ _ tid_got H1)|].
      split. { apply needed_ok, field_in in H2 as (j & Hin & H2). apply Hd in Hin as [_ Hin].
               destruct j; try discriminate. refine (each_got r_texpr tlabels _ _ _ _ H2 Hc).
               eapply Forall_impl; [|exact Hin]. intros j Hj. exact (proj2 Hj). }
      split; [exact (ofield_opt _ _ _ _ _ _ i32_got H3)|].
      split; [exact (ofield_opt _ _ _ _ _ _ i32_got H4)|].
      split; [exact (ofield_opt _ _ _ _ _ _ acts_got H5)|exact (ofield_opt _ _ _ _ _ _ anns_got H6)]. }
    destruct (String.eqb t "EachOf").
    { apply Hg in H as (id & l & mn & mx & acts & anns & -> & H). exact (H Hc). }
    destruct (String.eqb t "OneOf").
    { apply Hg in H as (id & l & mn & mx & acts & anns & -> & H). exact (H Hc). }
    destruct (String.eqb t "TripleConstraint"); [|discriminate].
    apply bind_ok in H as (x1 & H1 & H). apply bind_ok in H as (x2 & H2 & H).
    apply bind_ok in H as (x3 & H3 & H). apply bind_ok in H as (x4 & H4 & H).
    apply bind_ok in H as (x5 & H5 & H). apply bind_ok in H as (x6 & H6 & H).
    apply bind_ok in H as (x7 & H7 & H). apply bind_ok in H as (x8 & H8 & H).
    apply bind_ok in H as (x9 & H9 & H). injection H as <-. cbn [ok_texpr].
    split; [exact (ofield_opt _ _ _ _ _ _ tid_got H1)|].
    split; [apply needed_ok in H4; exact (field_opt _ _ _ _ _ name_got H4)|].
    split. { destruct x5 as [e|]; [|exact Logic.I]. apply field_in in H5 as (j & Hin & H5).
             apply Hd in Hin as [[Hin _] _]. exact (Hin e H5 Hc). }
    split; [exact (ofield_opt _ _ _ _ _ _ i32_got H6)|].
    split; [exact (ofield_opt _ _ _ _ _ _ i32_got H7)|].
    split; [exact (ofield_opt _ _ _ _ _ _ acts_got H8)|exact (ofield_opt _ _ _ _ _ _ anns_got H9)].
Qed.

Fixpoint deep_all (j : json) : deep j.
Proof.
  destruct j as [|b|z|s|s|l|ms].
  - split; [split; discriminate|exact Logic.I].
  - split; [split; discriminate|exact Logic.I].
  - split; [split; discriminate|exact Logic.I].
  - split; [split; discriminate|exact Logic.I].
  - split; [|exact Logic.I]. split; intros e H Hc.
    + unfold r_sexpr in H. cbn [r_both fst] in H. apply map_ok in H as (l & H & <-).
      exact (label_got s l H Hc).
    + unfold r_texpr in H. cbn [r_both snd] in H. apply map_ok in H as (l & H & <-).
      exact (tlabel_got s l H).
  - split; [split; discriminate|]. induction l as [|j l IH]; constructor; [exact (proj1 (deep_all j))|exact IH].
  - split; [|exact Logic.I]. apply obj_again. induction ms as [|[k j] ms IH]; constructor; [exact (deep_all j)|exact IH].
Qed.

Lemma sexpr_got j e : r_sexpr j = Ok e -> clean (labels e) -> ok_sexpr e.
Proof. exact (proj1 (proj1 (deep_all j)) e). Qed.

(* ------------------------------------------------------------------ *)
(* Schemas                                                              *)

Lemma decl_got j d : r_decl j = Ok d -> clean (d_id d :: labels (d_expr d)) -> ok_decl d.
Proof.
  destruct j; try discriminate. unfold r_decl. intros H Hc. apply bind_ok in H as (t & _ & H).
  apply bind_ok in H as (id & Hi & H). apply bind_ok in H as (b & _ & H).
  apply bind_ok in H as (e & He & H). injection H as <-. cbn [d_id d_expr] in *.
  apply needed_ok, field_in in Hi as (x & _ & Hi). apply needed_ok, field_in in He as (y & _ & He).
  split.
  - apply (id_got x id Hi). intros s [->|[]]. apply Hc. now left.
  - apply (sexpr_got y e He). intros s Hs. apply Hc. now right.
Qed.

Lemma import_got j i : r_import j = Ok i -> ok_import i.
Proof. unfold r_import. intros H. apply map_ok in H as (s & _ & <-). exact Logic.I. Qed.

Lemma iris_read j s : r_iris j = Ok s -> ok_iris s.
Proof.
  unfold r_iris. intros H. apply bind_ok in H as (t & _ & H).
  destruct (String.eqb t ""); [injection H as <-; now left|].
  destruct (iri_ok t) eqn:E; [|discriminate]. injection H as <-. now right.
Qed.

Lemma insert_vals (P : string -> Prop) l k v :
  Forall (fun kv => P (snd kv)) l -> P v -> Forall (fun kv => P (snd kv)) (insert l k v).
Proof.
  intros H Hv. induction H as [|[k' v'] l H1 H2 IH]; cbn; [now constructor|].
  destruct (String.eqb k k'); constructor; auto.
Qed.

Lemma entries_got ms acc r :
  Forall (fun kv => ok_iris (snd kv)) acc -> r_entries acc ms = Ok r ->
  Forall (fun kv => ok_iris (snd kv)) r.
Proof.
  revert acc. induction ms as [|[k j] ms IH]; intros acc Ha; cbn -[r_iris].
  - intros H. now injection H as <-.
  - intros H. apply bind_ok in H as (v & Hv & H). eapply IH; [|exact H].
    apply insert_vals; [exact Ha|exact (iris_read j v Hv)].
Qed.

Lemma prefixes_got j l : r_prefixes j = Ok l -> ok_prefixes l.
Proof.
  destruct j; try discriminate. cbn [r_prefixes]. intros H. split.
  - eapply entries_nodup; [|exact H]. constructor.
  - eapply entries_got; [|exact H]. constructor.
Qed.

Theorem schema_got j s : r_schema j = Ok s -> clean (schema_labels s) -> writable s.
Proof.
  destruct j; try discriminate. unfold r_schema. intros H Hc. apply bind_ok in H as (cx & _ & H).
  apply bind_ok in H as (t & _ & H).
  apply bind_ok in H as (x1 & H1 & H). apply bind_ok in H as (x2 & H2 & H).
  apply bind_ok in H as (x3 & H3 & H). apply bind_ok in H as (x4 & H4 & H).
  apply bind_ok in H as (x5 & H5 & H). apply bind_ok in H as (x6 & H6 & H). injection H as <-.
  unfold schema_labels in Hc. cbn [s_start s_shapes] in Hc. apply clean_app in Hc as [Hc1 Hc2].
  unfold writable. cbn [s_imports s_start s_acts s_shapes s_prefixes s_base s_source].
  split. { refine (ofield_opt (Forall ok_import) _ _ _ _ _ _ H1). intros y a Ha. exact (list_of _ _ _ _ import_got Ha). }
  split. { destruct x2 as [e|]; [|exact Logic.I]. apply ofield_in in H2 as (y & _ & H2).
           exact (sexpr_got y e H2 Hc1). }
  split; [exact (ofield_opt _ _ _ _ _ _ acts_got H3)|].
  split. { destruct x4 as [ds|]; [|exact Logic.I]. apply ofield_in in H4 as (y & _ & H4).
           destruct y; try discriminate. cbn in Hc2 |- *.
           refine (each_got r_decl (fun d => d_id d :: labels (d_expr d)) _ _ _ _ H4 Hc2).
           apply Forall_forall. intros y _ d Hd. exact (decl_got y d Hd). }
  split; [exact (ofield_opt _ _ _ _ _ _ prefixes_got H5)|].
  split; [exact (ofield_opt _ _ _ _ _ _ iris_read H6)|reflexivity].
Qed.

End Again.
