From Coq Require Import ZArith NArith List Bool Lia.
Import ListNotations.
From Verif Require Import NumModel LitModel LitSpec LitLemmas VsModel VsSpec.

(** ** strings *)
Lemma starts_with_spec s : forall p, starts_with s p = true <-> prefix_of p s.
Proof.
  unfold prefix_of. induction s as [|x s IH]; destruct p as [|y p]; cbn [starts_with].
  - split; [exists []; reflexivity|reflexivity].
  - split; [discriminate|intros [r H]; discriminate].
  - split; [exists (x :: s); reflexivity|reflexivity].
  - rewrite andb_true_iff, N.eqb_eq, IH. split.
    + intros [-> [r ->]]. exists r. reflexivity.
    + intros [r H]. injection H as -> ->. eauto.
Qed.

(** ** language ranges *)
Definition matches (a b : str) : bool :=
  if Nat.ltb (length (split b)) (length (split a)) then false else zip_all str_eqb (split a) (split b).
Lemma split_cons c s : c <> dash -> exists p ps, split s = p :: ps /\ split (c :: s) = (c :: p) :: ps.
Proof.
  intro D. cbn [split]. destruct (N.eqb_spec c dash); [contradiction|].
  assert (N : split s <> []). { destruct s as [|x s]; [discriminate|]. cbn [split]. destruct (N.eqb x dash); [discriminate|]. destruct (split s); discriminate. }
  destruct (split s) as [|p ps]; [contradiction|]. eauto.
Qed.
Lemma split_dash s : split (dash :: s) = [] :: split s.
Proof. reflexivity. Qed.
Lemma split_nonempty s : exists p ps, split s = p :: ps.
Proof.
  destruct s as [|c s]; [exists [], []; reflexivity|]. destruct (N.eq_dec c dash) as [->|D]; [rewrite split_dash; eauto|].
  destruct (split_cons c s D) as (p & ps & _ & ->). eauto.
Qed.
Lemma matches_spec a : forall b, matches a b = true <-> a = b \/ prefix_of (a ++ [dash]) b.
Proof.
  unfold prefix_of. induction a as [|c a IH]; intro b.
  - unfold matches. cbn [split length app]. destruct b as [|d b].
    + cbn. split; auto.
    + destruct (N.eq_dec d dash) as [->|D].
      * rewrite split_dash. cbn [length zip_all str_eqb]. split; [intros _; right; exists b; reflexivity|]. intros _.
        destruct (split_nonempty b) as (p & ps & ->). reflexivity.
      * destruct (split_cons d b D) as (p & ps & _ & ->). cbn. split; [discriminate|]. intros [H|[r H]]; [discriminate|]. injection H as -> ->. contradiction.
  - destruct (N.eq_dec c dash) as [->|C].
    + destruct b as [|d b].
      * unfold matches. rewrite split_dash. destruct (split_nonempty a) as (p & ps & ->). cbn. split; [discriminate|]. intros [H|[r H]]; discriminate.
      * destruct (N.eq_dec d dash) as [->|D].
        -- specialize (IH b). unfold matches in *. rewrite !split_dash. cbn [length zip_all str_eqb andb app].
           change (Nat.ltb (S (length (split b))) (S (length (split a)))) with (Nat.ltb (length (split b)) (length (split a))).
           rewrite IH. split; intros [H|[r H]].
           ++ left. f_equal. exact H.
           ++ right. exists r. rewrite H. reflexivity.
           ++ left. injection H as H. exact H.
           ++ right. exists r. injection H as H. exact H.
        -- unfold matches. rewrite split_dash. destruct (split_cons d b D) as (p & ps & _ & ->). cbn [zip_all str_eqb andb].
           match goal with |- ?b = true <-> _ => assert (F : b = false) by (destruct (Nat.ltb _ _); reflexivity) end.
           rewrite F. cbn [app]. split; [discriminate|]. intros [H|[r H]]; injection H as H; congruence.
    + destruct (split_cons c a C) as (q & qs & Ea & Ec). destruct b as [|d b].
      * unfold matches. rewrite Ec. cbn. split; [destruct (length qs); discriminate|]. intros [H|[r H]]; discriminate.
      * destruct (N.eq_dec d dash) as [->|D].
        -- unfold matches. rewrite Ec, split_dash. cbn [zip_all str_eqb andb].
           match goal with |- ?b = true <-> _ => assert (F : b = false) by (destruct (Nat.ltb _ _); reflexivity) end.
           rewrite F. cbn [app]. split; [discriminate|]. intros [H|[r H]]; injection H as H; congruence.
        -- destruct (split_cons d b D) as (p & ps & Eb & Ed). specialize (IH b). unfold matches in *. rewrite Ec, Ed. rewrite Ea, Eb in IH.
           cbn [length zip_all str_eqb app] in *. destruct (N.eqb_spec c d) as [->|N].
           ++ cbn [andb]. rewrite IH. split; intros [H|[r H]].
              ** left. f_equal. exact H.
              ** right. exists r. rewrite H. reflexivity.
              ** left. injection H as H. exact H.
              ** right. exists r. injection H as H. exact H.
           ++ cbn [andb]. split; [destruct (Nat.ltb _ _); discriminate|]. intros [H|[r H]]; injection H as H; congruence.
Qed.
Lemma lower_dash c : lower c = dash <-> c = dash.
Proof.
  unfold lower, dash. destruct (N.leb_spec 65 c), (N.leb_spec c 90); cbn [andb]; lia.
Qed.
Lemma split_lower s : split (map lower s) = map (map lower) (split s).
Proof.
  induction s as [|c s IH]; [reflexivity|]. cbn [map split]. destruct (N.eqb_spec (lower c) dash) as [E|E], (N.eqb_spec c dash) as [F|F].
  - cbn [map]. f_equal. exact IH.
  - apply (proj1 (lower_dash c)) in E. contradiction.
  - apply (proj2 (lower_dash c)) in F. contradiction.
  - rewrite IH. destruct (split s); reflexivity.
Qed.
Lemma zip_all_map f g a : forall b, (forall x y, f x y = g (map lower x) (map lower y)) -> zip_all f a b = zip_all g (map (map lower) a) (map (map lower) b).
Proof. induction a as [|x a IH]; destruct b as [|y b]; intro H; cbn [zip_all map]; try reflexivity. rewrite H, IH by exact H. reflexivity. Qed.
Lemma lang_stem_spec s t : lang_stem_matches s t = true <-> lang_range s t.
Proof.
  unfold lang_range, same_case. change 45%N with dash. rewrite <- matches_spec. unfold lang_stem_matches, matches. rewrite !split_lower, !map_length.
  rewrite (zip_all_map eq_ignore_case str_eqb) by reflexivity. reflexivity.
Qed.

(** ** tags *)
Lemma same_case_sym a b : same_case a b -> same_case b a.
Proof. unfold same_case. auto. Qed.
Lemma lang_range_case s s' t t' : same_case s s' -> same_case t t' -> (lang_range s t <-> lang_range s' t').
Proof. unfold lang_range, same_case. intros -> ->. reflexivity. Qed.
Lemma tag_eq L a b a' b' : tags_ok L -> lang_new L a = Some a' -> lang_new L b = Some b' -> (a' = b' <-> same_case a b).
Proof.
  intros [C D] A B. split.
  - intros ->. apply C in A. apply C in B. unfold same_case in *. congruence.
  - intro S. rewrite (D _ _ S), B in A. congruence.
Qed.

(** ** exclusions *)
Lemma excluded_spec {A} (f : excl A -> bool) (one stem : A -> Prop) ex :
  (forall a, f (EOne a) = true <-> one a) -> (forall a, f (EStem a) = true <-> stem a) ->
  (negb (existsb f ex) = true <-> ~ any ex one stem).
Proof.
  intros O S. rewrite negb_true_iff. split.
  - intros E (e & I & M). assert (existsb f ex = true); [|congruence]. apply existsb_exists. exists e. split; [exact I|]. destruct e; [apply O, M|apply S, M].
  - intro N. destruct (existsb f ex) eqn:E; [|reflexivity]. exfalso. apply N. apply existsb_exists in E as (e & I & M). exists e. split; [exact I|]. destruct e; [apply O, M|apply S, M].
Qed.
Lemma any_forall2 {A B} (R : excl A -> excl B -> Prop) ex ex' one stem one' stem' :
  Forall2 R ex ex' -> (forall e e', R e e' -> match e with EOne a => one a | EStem a => stem a end <-> match e' with EOne a => one' a | EStem a => stem' a end) ->
  (any ex one stem <-> any ex' one' stem').
Proof.
  intros F H. induction F as [|e e' ex ex' Re _ IH]; [split; intros (x & [] & _)|]. split; intros (x & [<-|I] & M).
  - exists e'. split; [left; reflexivity|]. apply (H _ _ Re), M.
  - destruct IH as [IH _]. destruct IH as (y & Iy & My); [exists x; auto|]. exists y. split; [right; exact Iy|exact My].
  - exists e. split; [left; reflexivity|]. apply (H _ _ Re), M.
  - destruct IH as [_ IH]. destruct IH as (y & Iy & My); [exists x; auto|]. exists y. split; [right; exact Iy|exact My].
Qed.

Ltac inner_match :=
  repeat match goal with |- context [match ?x with _ => _ end] => lazymatch x with context [match _ with _ => _ end] => fail | _ => destruct x end end.
Section Match.
  Context (L : lib).
  Lemma no_lang_typed s d l : of_term L (OTyped s d) = Some l -> lang l = None.
  Proof.
    cbn [of_term]. intro H.
    assert (K : lang (check_datatype L s d) = None).
    { unfold check_datatype. destruct d as [k| | | | | | | | |i]; try reflexivity; inner_match; reflexivity. }
    assert (X : forall x, match check_datatype L s d with LWrong _ _ => Some (LWrong s d) | _ => Some (LTyped s d) end = Some x -> lang x = None)
      by (intro x; destruct (check_datatype L s d); intro E; injection E as <-; reflexivity).
    destruct d as [[]| | | | | | | | |i]; try (apply (X _ H)); injection H as <-; exact K.
  Qed.
  Lemma not_string s d l : of_term L (OTyped s d) = Some l -> match l with LString _ _ => False | _ => True end.
  Proof.
    cbn [of_term]. intro H.
    assert (K : match check_datatype L s d with LString _ _ => False | _ => True end).
    { unfold check_datatype. destruct d as [k| | | | | | | | |i]; try exact I; inner_match; exact I. }
    assert (X : forall x, match check_datatype L s d with LWrong _ _ => Some (LWrong s d) | _ => Some (LTyped s d) end = Some x -> match x with LString _ _ => False | _ => True end)
      by (intro x; destruct (check_datatype L s d); intro E; injection E as <-; exact I).
    destruct d as [[]| | | | | | | | |i]; try (apply (X _ H)); injection H as <-; exact K.
  Qed.
  Lemma typed_exact s d s' d' : of_term L (OTyped s d) = Some (LTyped s' d') -> s' = s /\ d' = d.
  Proof.
    cbn [of_term]. intro H.
    assert (K : forall a b, check_datatype L s d = LTyped a b -> a = s /\ b = d).
    { unfold check_datatype. intros a b. destruct d as [k| | | | | | | | |i]; inner_match; intro E; try discriminate; injection E as <- <-; auto. }
    assert (X : forall a b, match check_datatype L s d with LWrong _ _ => Some (LWrong s d) | _ => Some (LTyped s d) end = Some (LTyped a b) -> a = s /\ b = d)
      by (intros a b; destruct (check_datatype L s d); intro E; try discriminate; injection E as <- <-; auto).
    destruct d as [[]| | | | | | | | |i]; try (apply (X _ _ H)); apply K; congruence.
  Qed.
  (** what the tag of a node is *)
  Lemma obj_lang_spec t o : read_term L t = Some o ->
    match obj_lang o with Some g' => exists s g, t = TLit (OLang s g) /\ lang_new L g = Some g' | None => forall P, ~ term_lang t P end.
  Proof.
    destruct t as [s|s|t]; cbn [read_term]; intro H; try (injection H as <-; cbn; tauto).
    destruct (of_term L t) as [l|] eqn:E; [|discriminate]. injection H as <-. cbn [obj_lang]. destruct t as [s|s g|s d].
    - apply of_simple in E. subst. cbn. tauto.
    - apply of_lang in E as (x & E & ->). cbn. eauto.
    - rewrite (no_lang_typed s d l E). cbn. tauto.
  Qed.
  Lemma obj_lang_term t o (f : str -> bool) (P : str -> Prop) : read_term L t = Some o ->
    (forall g g', lang_new L g = Some g' -> (f g' = true <-> P g)) ->
    (match obj_lang o with Some g => f g | None => false end = true <-> term_lang t P).
  Proof.
    intros H F. pose proof (obj_lang_spec t o H) as S. destruct (obj_lang o) as [g'|].
    - destruct S as (s & g & -> & E). cbn [term_lang]. apply F, E.
    - split; [discriminate|]. intro K. exfalso. eapply S, K.
  Qed.

  Definition kept (t : term) (o : obj) : Prop :=
    match t, o with TLit t, OLit l => lexical_form L l = term_lexical t | _, _ => True end.
  Lemma match_literal_spec e l t l' : tags_ok L -> proper t -> comparable_lit L e -> read_lit L e = Some l -> of_term L t = Some l' ->
    (match_literal L l' l = true <-> same_term (denoted e) t).
  Proof.
    intros T P C R H. destruct e as [s|s g|s d|s d|b]; cbn [read_lit comparable_lit] in *.
    - injection R as <-. destruct t as [s'|s' g'|s' d'].
      + apply of_simple in H. subst. cbn [match_literal opt_str_eqb denoted same_term]. rewrite andb_true_r, str_eqb_spec. split; [intros ->; reflexivity|intro E; injection E as ->; reflexivity].
      + apply of_lang in H as (x & _ & ->). cbn. rewrite andb_false_r. split; discriminate.
      + cbn [denoted same_term]. split; [|discriminate]. pose proof (not_string s' d' l' H) as N.
        destruct l'; try contradiction; discriminate.
    - destruct (lang_new L g) as [x|] eqn:G; [|discriminate]. injection R as <-. destruct t as [s'|s' g'|s' d'].
      + apply of_simple in H. subst. cbn. rewrite andb_false_r. split; [discriminate|discriminate].
      + apply of_lang in H as (y & E & ->). cbn [match_literal opt_str_eqb denoted same_term]. rewrite andb_true_iff, !str_eqb_spec.
        rewrite (tag_eq L g' g y x T E G). split; intros [A B]; split; auto using same_case_sym.
      + cbn [denoted same_term]. split; [|discriminate]. pose proof (not_string s' d' l' H) as N.
        destruct l'; try contradiction; discriminate.
    - assert (X : forall s d, l = LTyped s d -> keeps d -> d <> DString -> d <> DLangString -> of_term L (OTyped s d) = Some (LTyped s d) ->
        (match_literal L l' l = true <-> same_term (OTyped s d) t)); cycle 1.
      { destruct C as (K & N1 & N2 & W). injection R as <-. specialize (X s d eq_refl K N1 N2 W).
        replace (denoted (STyped s d)) with (OTyped s d) by (destruct d; try reflexivity; contradiction). exact X. }
      clear -P H. intros s d -> K N1 N2 W. destruct t as [s'|s' g'|s' d'].
      + apply of_simple in H. subst. split; discriminate.
      + apply of_lang in H as (y & E & ->). split; discriminate.
      + cbn [same_term]. split.
        * destruct l' as [a b|s1 d1|n|z|b|s1 d1]; try discriminate. cbn [match_literal]. rewrite andb_true_iff, str_eqb_spec, dtype_eqb_spec. intros [-> ->].
          apply typed_exact in H as [-> ->]. reflexivity.
        * intro E. injection E as <- <-. rewrite W in H. injection H as <-. cbn [match_literal]. rewrite str_eqb_refl, dtype_eqb_refl. reflexivity.
    - assert (X : forall s d, l = LTyped s d -> keeps d -> d <> DString -> d <> DLangString -> of_term L (OTyped s d) = Some (LTyped s d) ->
        (match_literal L l' l = true <-> same_term (OTyped s d) t)); cycle 1.
      { destruct C as (K & N1 & N2 & W). injection R as <-. exact (X s d eq_refl K N1 N2 W). }
      clear -P H. intros s d -> K N1 N2 W. destruct t as [s'|s' g'|s' d'].
      + apply of_simple in H. subst. split; discriminate.
      + apply of_lang in H as (y & E & ->). split; discriminate.
      + cbn [same_term]. split.
        * destruct l' as [a b|s1 d1|n|z|b|s1 d1]; try discriminate. cbn [match_literal]. rewrite andb_true_iff, str_eqb_spec, dtype_eqb_spec. intros [-> ->].
          apply typed_exact in H as [-> ->]. reflexivity.
        * intro E. injection E as <- <-. rewrite W in H. injection H as <-. cbn [match_literal]. rewrite str_eqb_refl, dtype_eqb_refl. reflexivity.
    - destruct C.
  Qed.

  Lemma norm_any ex ex' g g' : tags_ok L -> lang_new L g = Some g' -> Forall2 (fun e e' => norm_excl L e = Some e') ex ex' ->
    (negb (existsb (lang_excluded g') ex') = true <-> ~ any ex (fun x => same_case x g) (fun x => lang_range x g)).
  Proof.
    intros T G F. rewrite (excluded_spec (lang_excluded g') (fun x => g' = x) (fun x => lang_range x g')).
    2: { intro a. cbn. apply str_eqb_spec. } 2: { intro a. cbn. apply lang_stem_spec. }
    enough (X : any ex (fun x => same_case x g) (fun x => lang_range x g) <-> any ex' (fun x => g' = x) (fun x => lang_range x g')) by (rewrite X; reflexivity).
    apply (any_forall2 _ _ _ _ _ _ _ F). intros e e' E. destruct e as [a|a]; cbn [norm_excl] in E; destruct (lang_new L a) as [a'|] eqn:A; try discriminate; injection E as <-.
    - rewrite (tag_eq L g a g' a' T G A). split; apply same_case_sym.
    - apply lang_range_case; apply same_case_sym; [apply (proj1 T _ _ A)|apply (proj1 T _ _ G)].
  Qed.

  Lemma match_value_spec sv v t o : tags_ok L -> reads L sv v -> read_term L t = Some o -> kind_matches sv t ->
    (match t with TLit x => proper x | _ => True end) -> (match sv with SVLit e => comparable_lit L e | _ => True end) -> kept t o ->
    (match_value L v o = true <-> member sv t).
  Proof.
    intros T R H K P C KT. destruct R as [s|e l E|s|s ex|s|s ex|g g' G|g g' G| |g g' ex ex' G F|ex ex' F]; cbn [match_value member].
    - destruct t as [i|i|x]; cbn [read_term] in H; [injection H as <-|injection H as <-; split; discriminate|].
      + rewrite str_eqb_spec. split; [intros ->; reflexivity|intro X; injection X as ->; reflexivity].
      + destruct (of_term L x); [|discriminate]. injection H as <-. split; discriminate.
    - destruct t as [i|i|x]; cbn [read_term] in H; try (injection H as <-; split; [discriminate|tauto]).
      destruct (of_term L x) as [l'|] eqn:X; [|discriminate]. injection H as <-. apply match_literal_spec; assumption.
    - destruct t as [i|i|x]; cbn [read_term] in H; [injection H as <-; apply starts_with_spec|injection H as <-; cbn; split; [discriminate|tauto]|].
      destruct (of_term L x); [|discriminate]. injection H as <-. cbn. split; [discriminate|tauto].
    - cbn [kind_matches] in K. destruct t as [i|i|x]; cbn [read_term] in H.
      + injection H as <-. cbn [term_iri]. rewrite andb_true_iff, (excluded_spec (iri_excluded i) (fun x => i = x) (fun x => prefix_of x i)).
        * destruct s as [s|]; [rewrite starts_with_spec|]; tauto.
        * intro a. cbn. apply str_eqb_spec.
        * intro a. cbn. apply starts_with_spec.
      + injection H as <-. destruct s; [|destruct K]. cbn. split; [discriminate|tauto].
      + destruct (of_term L x); [|discriminate]. injection H as <-. destruct s; [|destruct K]. cbn. split; [discriminate|tauto].
    - destruct t as [i|i|x]; cbn [read_term] in H; try (injection H as <-; cbn; split; [discriminate|tauto]).
      destruct (of_term L x); [|discriminate]. injection H as <-. cbn [kept] in KT. cbn [term_text]. rewrite KT. apply starts_with_spec.
    - cbn [kind_matches] in K. destruct t as [i|i|x]; cbn [read_term] in H.
      + injection H as <-. destruct s; [|destruct K]. cbn. split; [discriminate|tauto].
      + injection H as <-. destruct s; [|destruct K]. cbn. split; [discriminate|tauto].
      + destruct (of_term L x) as [l|]; [|discriminate]. injection H as <-. cbn [kept] in KT. cbn [term_text].
        rewrite andb_true_iff, (excluded_spec (lit_excluded L l) (fun y => term_lexical x = y) (fun y => prefix_of y (term_lexical x))).
        * rewrite KT. destruct s as [s|]; [rewrite starts_with_spec|]; tauto.
        * intro a. cbn [lit_excluded]. rewrite KT. apply str_eqb_spec.
        * intro a. cbn [lit_excluded]. rewrite KT. apply starts_with_spec.
    - apply (obj_lang_term t o _ _ H). intros x x' X. rewrite str_eqb_spec. apply (tag_eq L g x g' x' T G X).
    - apply (obj_lang_term t o _ _ H). intros x x' X. rewrite lang_stem_spec. apply lang_range_case; [apply (proj1 T _ _ G)|apply (proj1 T _ _ X)].
    - apply (obj_lang_term t o _ _ H). intros x x' X. tauto.
    - pose proof (obj_lang_spec t o H) as S. destruct (obj_lang o) as [x'|].
      + destruct S as (s & x & -> & X). cbn [term_lang]. rewrite andb_true_iff, lang_stem_spec, (norm_any ex ex' x x' T X F).
        rewrite (lang_range_case g' g x' x (proj1 T _ _ G) (proj1 T _ _ X)). reflexivity.
      + cbn [andb]. split; [discriminate|]. intro Q. exfalso. eapply S, Q.
    - cbn [kind_matches] in K. pose proof (obj_lang_spec t o H) as S. destruct (obj_lang o) as [x'|].
      + destruct S as (s & x & -> & X). cbn [term_lang]. rewrite andb_true_iff, (norm_any ex ex' x x' T X F). tauto.
      + destruct t as [| |[|s g|]]; try contradiction. exfalso. apply (S (fun _ => True)). exact I.
  Qed.

  Lemma check_value_spec svs vs t o : tags_ok L -> Forall2 (reads L) svs vs -> read_term L t = Some o ->
    Forall (fun sv => kind_matches sv t) svs -> (match t with TLit x => proper x | _ => True end) ->
    Forall (fun sv => match sv with SVLit e => comparable_lit L e | _ => True end) svs -> kept t o ->
    (check_value L vs o = true <-> exists sv, In sv svs /\ member sv t).
  Proof.
    intros T R H K P C KT. unfold check_value. induction R as [|sv v svs vs Rv _ IH]; cbn [existsb].
    - split; [discriminate|]. intros (x & [] & _).
    - inversion K as [|? ? K1 K2]; subst. inversion C as [|? ? C1 C2]; subst.
      rewrite orb_true_iff, (match_value_spec sv v t o T Rv H K1 P C1 KT), (IH K2 C2). split.
      + intros [M|(x & I & M)]; [exists sv; split; [left; reflexivity|exact M]|exists x; split; [right; exact I|exact M]].
      + intros (x & [<-|I] & M); [left; exact M|right; exists x; auto].
  Qed.
End Match.

(** ** compilation *)
Lemma cnv_all_done {A B} (f : A -> outcome B) l bs : cnv_all f l = Done bs <-> Forall2 (fun a b => f a = Done b) l bs.
Proof.
  revert bs. induction l as [|a l IH]; intro bs; cbn [cnv_all].
  - split; [intro H; injection H as <-; constructor|intro H; inversion H; reflexivity].
  - destruct (f a) as [b| |] eqn:E; cbn [bind].
    + destruct (cnv_all f l) as [cs| |] eqn:F; cbn [bind].
      * split; [intro H; injection H as <-; constructor; [exact E|apply IH; reflexivity]|].
        intro H. inversion H as [|? b' ? bs' X Y]; subst. rewrite E in X. injection X as <-. apply IH in Y. injection Y as <-. reflexivity.
      * split; [discriminate|]. intro H. inversion H as [|? b' ? bs' X Y]; subst. apply IH in Y. discriminate.
      * split; [discriminate|]. intro H. inversion H as [|? b' ? bs' X Y]; subst. apply IH in Y. discriminate.
    + split; [discriminate|]. intro H. inversion H; congruence.
    + split; [discriminate|]. intro H. inversion H; congruence.
Qed.
