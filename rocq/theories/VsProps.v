(** C27, C36, C49. *)
From Coq Require Import ZArith NArith List Bool Lia Ascii String.
Import ListNotations.
From Verif Require Import NumModel LitModel LitSpec LitLemmas LitProps VsModel VsSpec VsLemmas.

(** C36. *)
Theorem C36_lang_stem stem tag : lang_stem_matches stem tag = true <-> lang_range stem tag.
Proof. exact (lang_stem_spec stem tag). Qed.
Print Assumptions C36_lang_stem.
Example C36_met : lang_stem_matches (txt "fr-be") (txt "fr-BE-x") = true /\ lang_stem_matches (txt "fr-be") (txt "fr-bel") = false.
Proof. split; reflexivity. Qed.

(** C27. A node of the data is in a value set exactly if the set has it as a member; literals of the set are
    plain, have a language tag, or have a datatype that keeps texts and are well-typed; wildcards meet nodes of
    their kind; texts that stems look at are kept. Full statement: without these conditions. *)
Theorem C27_value_set_partial L svs vs t o : tags_ok L -> Forall2 (reads L) svs vs -> read_term L t = Some o ->
  Forall (fun sv => kind_matches sv t) svs -> (match t with TLit x => proper x | _ => True end) ->
  Forall (fun sv => match sv with SVLit e => comparable_lit L e | _ => True end) svs ->
  (match t with TLit x => keeps (term_datatype x) | _ => True end) ->
  (check_value L vs o = true <-> exists sv, In sv svs /\ member sv t).
Proof.
  intros T R H K P C KT. apply check_value_spec; try assumption. destruct t as [s|s|x]; try exact I. cbn [read_term] in H.
  destruct (of_term L x) as [l|] eqn:E; [|discriminate]. injection H as <-. cbn [kept]. apply keeps_lexical; assumption.
Qed.
Print Assumptions C27_value_set_partial.
(** an integer literal that is well-typed is compared as a term *)
Theorem C27_integer_comparable L s z : xsd_int KInteger s z -> (- 2 ^ 127 <= z < 2 ^ 127)%Z -> comparable_lit L (SNumeric s (DInt KInteger)).
Proof.
  intros X F. cbn [comparable_lit]. split; [exact I|]. split; [discriminate|]. split; [discriminate|].
  assert (P : parse_int KInteger s = Some z) by (apply parse_int_complete; [exact X|exact F|intros []]).
  cbn [of_term]. rewrite check_int, P. reflexivity.
Qed.
Print Assumptions C27_integer_comparable.
(** the booleans true and false of a schema are compared by value *)
Theorem C27_boolean L b l t l' : read_lit L (SBool b) = Some l -> of_term L t = Some l' ->
  (match_value L (VLit l) (OLit l') = true <-> exists s, t = OTyped s DBoolean /\ xsd_boolean s b).
Proof.
  intros R H. injection R as <-. cbn [match_value]. destruct t as [s|s g|s d].
  - apply of_simple in H. subst. split; [discriminate|intros (x & E & _); discriminate].
  - apply of_lang in H as (x & _ & ->). split; [discriminate|intros (y & E & _); discriminate].
  - split.
    + intro M. destruct l' as [| | | |b'|]; try discriminate. cbn [match_literal] in M. apply eqb_prop in M. subst b'.
      pose proof (of_term_checked L s d _ H) as C. cbn [into_checked] in C.
      assert (D : d = DBoolean) by (rewrite <- (datatype_checked L s d), <- C; reflexivity). subst d. exists s. split; [reflexivity|].
      cbn [check_datatype] in C. destruct (parse_bool s) as [b0|] eqn:P; [|discriminate]. injection C as <-. apply parse_bool_spec, P.
    + intros (x & E & X). injection E as <- ->. apply parse_bool_spec in X. cbn [of_term check_datatype] in H. rewrite X in H. injection H as <-.
      cbn [match_literal]. apply eqb_reflx.
Qed.
Print Assumptions C27_boolean.
(** so the value set with the boolean true contains the different literal 1 *)
Theorem C27_boolean_refuted : exists t, forall L l l', read_lit L (SBool true) = Some l -> of_term L t = Some l' ->
  check_value L [VLit l] (OLit l') = true /\ ~ member (SVLit (SBool true)) (TLit t).
Proof.
  exists (OTyped (txt "1") DBoolean). intros L l l' R H. cbn in R, H. injection R as <-. injection H as <-. split; [reflexivity|]. cbn. discriminate.
Qed.
Print Assumptions C27_boolean_refuted.
(** typed literals of a schema that are written exactly as in the data and do not match: of an integer type other
    than xsd:integer, of type xsd:boolean, of type xsd:string, ill-typed *)
Theorem C27_typed_refuted : Forall (fun sd => forall L l l', read_lit L (STyped (fst sd) (snd sd)) = Some l ->
    of_term L (denoted (STyped (fst sd) (snd sd))) = Some l' ->
    check_value L [VLit l] (OLit l') = false /\ member (SVLit (STyped (fst sd) (snd sd))) (TLit (denoted (STyped (fst sd) (snd sd)))))
  [(txt "1", DInt KByte); (txt "true", DBoolean); (txt "a", DString); (txt "a", DInt KInteger)].
Proof.
  repeat constructor; intros; cbn in H, H0; injection H as <-; injection H0 as <-; reflexivity.
Qed.
Print Assumptions C27_typed_refuted.
(** a wildcard of IRIs contains literals *)
Theorem C27_wildcard_refuted : exists ex t o, (forall L, read_term L t = Some o) /\ (forall L, reads L (SV (VIriRange None ex)) (VIriRange None ex)) /\
  ~ member (SV (VIriRange None ex)) t /\ forall L, check_value L [VIriRange None ex] o = true.
Proof.
  exists [EOne (txt "http://e/a")], (TLit (OSimple (txt "a"))), (OLit (LString (txt "a") None)).
  split; [reflexivity|]. split; [constructor|]. split; [intros []|reflexivity].
Qed.
Print Assumptions C27_wildcard_refuted.
(** a stem does not see the text of the data *)
Theorem C27_stem_refuted : exists stem t, member (SV (VLitStem stem)) (TLit t) /\
  forall L l, of_term L t = Some l -> check_value L [VLitStem stem] (OLit l) = false.
Proof.
  exists (txt "0"), (OTyped (txt "01") (DInt KByte)). split; [exists (txt "1"); reflexivity|]. intros L l H. cbn in H. injection H as <-. reflexivity.
Qed.
Print Assumptions C27_stem_refuted.
(** a library that normalises tags *)
Definition lib1 : lib := {|
  parse_dec := fun _ => None; parse_f64 := fun _ => None; parse_f32 := fun _ => None;
  show_dec := fun _ => []; show_f64 := fun _ => []; show_f32 := fun _ => []; ox_f64 := fun _ => []; ox_f32 := fun _ => [];
  ox_i16 := DInt KInteger; f64_dec := fun _ => None; f32_dec := fun _ => None; parse_date := fun _ => None; show_date := fun _ => [];
  cmp_date := fun _ _ => None; eqb_date := fun _ _ => false; lang_new := fun t => Some (map lower t) |}.
Lemma lower_lower c : lower (lower c) = lower c.
Proof. unfold lower. destruct (N.leb_spec 65 c), (N.leb_spec c 90); cbn [andb]; repeat match goal with |- context [N.leb ?a ?b] => destruct (N.leb_spec a b) end; cbn [andb]; lia. Qed.
Example C27_met : tags_ok lib1 /\
  Forall2 (reads lib1) [SV (VLangRange (Some (txt "FR")) [EStem (txt "fr-be")]); SVLit (SNumeric (txt "007") (DInt KInteger))]
    [VLangRange (Some (txt "fr")) [EStem (txt "fr-be")]; VLit (LTyped (txt "007") (DInt KInteger))] /\
  check_value lib1 [VLangRange (Some (txt "fr")) [EStem (txt "fr-be")]; VLit (LTyped (txt "007") (DInt KInteger))] (OLit (LString (txt "a") (Some (txt "fr-ca")))) = true /\
  read_term lib1 (TLit (OLang (txt "a") (txt "fr-CA"))) = Some (OLit (LString (txt "a") (Some (txt "fr-ca")))).
Proof.
  split; [|split; [|split; reflexivity]].
  - split; [intros t g H; cbn in H; injection H as <-; unfold same_case; rewrite map_map; apply map_ext; apply lower_lower|].
    intros t t' S. cbn. unfold same_case in S. rewrite S. reflexivity.
  - constructor; [|constructor; [|constructor]]; [apply rd_lang_range; [reflexivity|constructor; [reflexivity|constructor]]|apply rd_lit; reflexivity].
Qed.

(** C49. Compiling a value set: prefixed names are replaced by what they denote, unknown prefixes are errors.
    This holds if no exclusion is a prefixed name. Full statement: for every value set. *)
Lemma cnv_iri_ref_spec resolve i s : cnv_iri_ref resolve i = Done s <-> iri_denotes resolve i s.
Proof.
  destruct i as [x|p l]; cbn; [split; [intro H; injection H as <-; reflexivity|intros <-; reflexivity]|].
  destruct (resolve p l); split; intro H; try discriminate; injection H as <-; reflexivity.
Qed.
Lemma cnv_excl_spec resolve e e' : (match e with EOne i | EStem i => exists s, i = Iri s end) -> (cnv_iri_exclusion e = Done e' <-> resolved_excl resolve e e').
Proof.
  destruct e as [i|i]; intros [s ->]; cbn; (split; [intro H; injection H as <-; constructor; reflexivity|]); intro H;
    inversion H as [j x D|j x D]; subst; cbn in D; subst; reflexivity.
Qed.
Lemma cnv_excls_spec resolve ex ex' : Forall (fun e => match e with EOne i | EStem i => exists s, i = Iri s end) ex ->
  (cnv_all cnv_iri_exclusion ex = Done ex' <-> Forall2 (resolved_excl resolve) ex ex').
Proof.
  intro P. rewrite cnv_all_done. revert ex'. induction P as [|e ex Pe _ IH]; intro ex'; (split; intro H; inversion H as [|? e' ? ex'' A B]; subst; constructor);
    try (apply (cnv_excl_spec resolve); assumption); apply IH; assumption.
Qed.
Lemma cnv_value_spec resolve v v' : plain_exclusions v -> (cnv_value resolve v = Done v' <-> resolved resolve v v').
Proof.
  intro P. destruct v as [i|[i|] ex|s|s ex|g|g|g ex|i|l]; cbn [cnv_value plain_exclusions] in *;
    try (split; [intro H; injection H as <-; constructor|intro H; inversion H; reflexivity]).
  - destruct (cnv_iri_ref resolve i) as [s| |] eqn:E; cbn [bind]; (split; [intro H; try discriminate; injection H as <-; constructor; apply cnv_iri_ref_spec, E|]);
      intro H; inversion H as [j x D| | | | | | | | |]; subst; apply cnv_iri_ref_spec in D; congruence.
  - destruct (cnv_iri_ref resolve i) as [s| |] eqn:E; cbn [bind].
    + destruct (cnv_all cnv_iri_exclusion ex) as [ex1| |] eqn:F; cbn [bind].
      * apply (cnv_excls_spec resolve) in F as F'; [|exact P]. split; [intro H; injection H as <-; constructor; [apply cnv_iri_ref_spec, E|exact F']|].
        intro H. inversion H as [|j x a b D X| | | | | | | |]; subst. apply cnv_iri_ref_spec in D. apply (cnv_excls_spec resolve) in X; [|exact P]. congruence.
      * split; [discriminate|]. intro H. inversion H as [|j x a b D X| | | | | | | |]; subst. apply (cnv_excls_spec resolve) in X; [|exact P]. congruence.
      * split; [discriminate|]. intro H. inversion H as [|j x a b D X| | | | | | | |]; subst. apply (cnv_excls_spec resolve) in X; [|exact P]. congruence.
    + split; [discriminate|]. intro H. inversion H as [|j x a b D X| | | | | | | |]; subst. apply cnv_iri_ref_spec in D. congruence.
    + split; [discriminate|]. intro H. inversion H as [|j x a b D X| | | | | | | |]; subst. apply cnv_iri_ref_spec in D. congruence.
  - destruct (cnv_all cnv_iri_exclusion ex) as [ex1| |] eqn:F; cbn [bind].
    + apply (cnv_excls_spec resolve) in F as F'; [|exact P]. split; [intro H; injection H as <-; constructor; exact F'|].
      intro H. inversion H as [| |a b X| | | | | | |]; subst. apply (cnv_excls_spec resolve) in X; [|exact P]. congruence.
    + split; [discriminate|]. intro H. inversion H as [| |a b X| | | | | | |]; subst. apply (cnv_excls_spec resolve) in X; [|exact P]. congruence.
    + split; [discriminate|]. intro H. inversion H as [| |a b X| | | | | | |]; subst. apply (cnv_excls_spec resolve) in X; [|exact P]. congruence.
  - destruct (cnv_iri_ref resolve i) as [s| |] eqn:E; cbn [bind]; (split; [intro H; try discriminate; injection H as <-; constructor; apply cnv_iri_ref_spec, E|]);
      intro H; inversion H as [| | | | | | | |j x D|]; subst; apply cnv_iri_ref_spec in D; congruence.
Qed.
Theorem C49_compile_partial resolve vs vs' : Forall plain_exclusions vs ->
  (create_value_set resolve vs = Done vs' <-> Forall2 (resolved resolve) vs vs').
Proof.
  intro P. unfold create_value_set. rewrite cnv_all_done. revert vs'.
  induction P as [|v vs Pv _ IH]; intro vs'; (split; intro H; inversion H as [|? v' ? vs'' A B]; subst; constructor); try (apply cnv_value_spec; assumption); apply IH; assumption.
Qed.
Print Assumptions C49_compile_partial.
Theorem C49_no_panic_partial resolve vs : Forall plain_exclusions vs -> create_value_set resolve vs <> Panic.
Proof.
  assert (R : forall i, cnv_iri_ref resolve i <> Panic) by (intros [x|p l]; cbn; [discriminate|destruct (resolve p l); discriminate]).
  assert (E : forall ex, Forall (fun e => match e with EOne i | EStem i => exists s, i = Iri s end) ex -> cnv_all cnv_iri_exclusion ex <> Panic).
  { intros ex H. induction H as [|e ex Pe _ IH]; [discriminate|]. cbn [cnv_all].
    destruct e as [i|i]; destruct Pe as [s ->]; cbn; (destruct (cnv_all cnv_iri_exclusion ex); [discriminate|discriminate|contradiction]). }
  assert (V : forall v, plain_exclusions v -> cnv_value resolve v <> Panic).
  { intros v P. destruct v as [i|[i|] ex|s|s ex|g|g|g ex|i|l]; cbn [cnv_value plain_exclusions] in *; try discriminate.
    - specialize (R i). destruct (cnv_iri_ref resolve i); [discriminate|discriminate|contradiction].
    - specialize (R i). specialize (E ex P). destruct (cnv_iri_ref resolve i); [|discriminate|contradiction]. cbn [bind].
      destruct (cnv_all cnv_iri_exclusion ex); [discriminate|discriminate|contradiction].
    - specialize (E ex P). destruct (cnv_all cnv_iri_exclusion ex); [discriminate|discriminate|contradiction].
    - specialize (R i). destruct (cnv_iri_ref resolve i); [discriminate|discriminate|contradiction]. }
  unfold create_value_set. induction 1 as [|v vs Pv _ IH]; [discriminate|]. cbn [cnv_all]. specialize (V v Pv).
  destruct (cnv_value resolve v); [|discriminate|contradiction]. cbn [bind]. destruct (cnv_all (cnv_value resolve) vs); [discriminate|discriminate|contradiction].
Qed.
Print Assumptions C49_no_panic_partial.
(** a value set whose names all have a declared prefix, and that panics *)
Theorem C49_panic_refuted : exists (resolve : str -> str -> option str) v v', resolved resolve v v' /\ create_value_set resolve [v] = Panic.
Proof.
  exists (fun p l => Some (p ++ l)), (VIriRange (Some (Prefixed (txt "e/") (txt "a"))) [EOne (Prefixed (txt "e/") (txt "ab"))]),
    (VIriRange (Some (txt "e/a")) [EOne (txt "e/ab")]).
  split; [|reflexivity]. constructor; [reflexivity|]. constructor; [|constructor]. constructor. reflexivity.
Qed.
Print Assumptions C49_panic_refuted.
Example C49_met : create_value_set (fun p l => Some (p ++ l)) [VIri (Prefixed (txt "e/") (txt "a")); VIriRange None [EStem (Iri (txt "e/b"))]]
  = Done [VIri (txt "e/a"); VIriRange None [EStem (txt "e/b")]].
Proof. reflexivity. Qed.
