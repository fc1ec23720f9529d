(* Reading what has been written: names, values and node constraints. *)

From Coq Require Import List String Ascii NArith ZArith Bool Lia Arith Sorting.Sorted Sorting.Permutation.
From Verif Require Import SjModel SjSpec SjText.
Import ListNotations.
Open Scope string_scope.

(* ------------------------------------------------------------------ *)
(* Results                                                              *)

Lemma bind_ok {A B : Type} (x : res A) (f : A -> res B) (r : B) :
  rbind x f = Ok r <-> exists a, x = Ok a /\ f a = Ok r.
Proof.
  destruct x as [a| |]; cbn.
  - split; [intros H; now exists a|]. intros (b & H & Hf). injection H as <-. exact Hf.
  - split; [discriminate|intros (b & H & _); discriminate].
  - split; [discriminate|intros (b & H & _); discriminate].
Qed.

Lemma map_ok {A B : Type} (f : A -> B) (x : res A) (r : B) :
  rmap f x = Ok r <-> exists a, x = Ok a /\ f a = r.
Proof.
  unfold rmap. rewrite bind_ok. split; intros (a & H & Hf); exists a; split; auto.
  - now injection Hf.
  - now rewrite Hf.
Qed.

(* A constructor around a result. *)
Lemma map_inj {A B : Type} (f : A -> B) (x : res A) (a : A) :
  (forall b, f b = f a -> b = a) -> (rmap f x = Ok (f a) <-> x = Ok a).
Proof.
  intros Hf. rewrite map_ok. split; [|intros H; now exists a].
  intros (b & H & Hb). apply Hf in Hb. now subst.
Qed.

Lemma of_opt_ok {A : Type} (o : option A) a : of_opt o = Ok a <-> o = Some a.
Proof. destruct o; cbn; split; intros H; try discriminate; now injection H as ->. Qed.

Lemma ok_inj {A : Type} (a b : A) : Ok a = Ok b <-> a = b.
Proof. split; [intros H; now injection H|now intros ->]. Qed.

Lemma all_ok {A : Type} (l : list (res A)) r : all l = Ok r <-> Forall2 (fun x a => x = Ok a) l r.
Proof.
  revert r; induction l as [|x l IH]; intros r; cbn.
  - rewrite ok_inj. split; [intros <-; constructor|]. now inversion 1.
  - rewrite bind_ok. split.
    + intros (a & Hx & H). apply bind_ok in H as (t & Hl & H). injection H as <-.
      constructor; [exact Hx|]. now apply IH.
    + intros H. inversion H as [|? a ? t Hx Hl]; subst. exists a. split; [reflexivity|].
      apply bind_ok. exists t. split; [now apply IH|reflexivity].
Qed.

Lemma all_iff {A X : Type} (rd : X -> res A) (w : A -> X) (P : A -> Prop) (l : list A) :
  Forall (fun a => rd (w a) = Ok a <-> P a) l ->
  (all (map rd (map w l)) = Ok l <-> Forall P l).
Proof.
  rewrite all_ok. induction l as [|a l IH]; intros Hl; cbn.
  - split; constructor.
  - inversion Hl as [|? ? Ha Hl']; subst. split; intros H; inversion H; subst.
    + constructor; [now apply Ha|now apply IH].
    + constructor; [now apply Ha|now apply IH].
Qed.

Lemma list_iff {A : Type} (rd : json -> res A) (w : A -> json) (P : A -> Prop) (l : list A) :
  (forall a, rd (w a) = Ok a <-> P a) -> (r_list rd (w_list w l) = Ok l <-> Forall P l).
Proof. intros H. cbn. apply all_iff. apply Forall_forall. auto. Qed.

(* ------------------------------------------------------------------ *)
(* Members                                                              *)

Definition mem {X : Type} (k : string) (ms : list (string * X)) : bool :=
  existsb (fun m => String.eqb k (fst m)) ms.

Lemma mem_app {X : Type} k (a b : list (string * X)) : mem k (a ++ b) = mem k a || mem k b.
Proof. apply existsb_app. Qed.

Lemma field_none {X A : Type} k (rd : X -> res A) ms : mem k ms = false -> field k rd ms = Ok None.
Proof.
  induction ms as [|[k' x] ms IH]; cbn; [reflexivity|].
  intros H. apply orb_false_iff in H as [H1 H2]. rewrite H1. now apply IH.
Qed.

Lemma field_skip {X A : Type} k (rd : X -> res A) a ms :
  mem k a = false -> field k rd (a ++ ms) = field k rd ms.
Proof.
  induction a as [|[k' x] a IH]; cbn; [reflexivity|].
  intros H. apply orb_false_iff in H as [H1 H2]. rewrite H1. now apply IH.
Qed.

Lemma field_cut {X A : Type} k (rd : X -> res A) a ms :
  mem k ms = false -> field k rd (a ++ ms) = field k rd a.
Proof.
  intros Hm. induction a as [|[k' x] a IH]; cbn; [now apply field_none|].
  rewrite IH. destruct (String.eqb k k'); [|reflexivity].
  rewrite existsb_app. fold (mem k ms). rewrite Hm, orb_false_r. reflexivity.
Qed.

Lemma field_map {X Y A : Type} k (rd : Y -> res A) (g : X -> Y) ms :
  field k rd (map (fun m => (fst m, g (snd m))) ms) = field k (fun x => rd (g x)) ms.
Proof.
  induction ms as [|[k' x] ms IH]; cbn; [reflexivity|]. rewrite IH.
  destruct (String.eqb k k'); [|reflexivity].
  replace (existsb _ (map _ ms)) with (existsb (fun m => String.eqb k (fst m)) ms); [reflexivity|].
  clear. induction ms as [|m ms IH]; cbn; [reflexivity|]. now rewrite IH.
Qed.

Lemma field_ext {X A : Type} k (rd rd' : X -> res A) ms :
  (forall x, rd x = rd' x) -> field k rd ms = field k rd' ms.
Proof.
  intros H. induction ms as [|[k' x] ms IH]; cbn; [reflexivity|]. now rewrite IH, H.
Qed.

(* ------------------------------------------------------------------ *)

Section Values.
Context {L : lib}.

Lemma field_memb {A B : Type} k (rd : json -> res B) (w : A -> json) o :
  field k rd (memb k w o) =
  match o with Some a => rmap Some (rd (w a)) | None => Ok None end.
Proof. destruct o; cbn; [now rewrite String.eqb_refl|reflexivity]. Qed.

Lemma mem_memb {A : Type} k k' (w : A -> json) o :
  String.eqb k k' = false -> mem k (memb k' w o) = false.
Proof. destruct o; cbn; [intros ->|]; reflexivity. Qed.

Lemma opt_iff {A : Type} (rd : json -> res A) (w : A -> json) (P : A -> Prop) o :
  (forall a, rd (w a) = Ok a <-> P a) ->
  (match o with Some a => rmap Some (rd (w a)) | None => Ok None end = Ok o <-> ok_opt P o).
Proof.
  intros H. destruct o as [a|]; cbn; [|tauto].
  rewrite <- (H a). apply (map_inj Some). intros b Hb. now injection Hb.
Qed.

(* ------------------------------------------------------------------ *)
(* Names                                                                *)

Lemma absolute_iff i : iri_from_str (show_iri i) = Ok i <-> ok_absolute i.
Proof.
  unfold iri_from_str. destruct i as [s|p l]; cbn.
  - destruct (iri_ok s); split; intros H; auto; discriminate.
  - destruct (iri_ok _); split; intros H; try discriminate; contradiction.
Qed.

Lemma name_iff i : r_iri (w_iri i) = Ok i <-> ok_name i.
Proof.
  unfold r_iri, w_iri. cbn [r_str rbind]. unfold iri_visit. destruct i as [s|p l]; cbn [show_iri ok_name].
  - destruct (iri_ok s); [tauto|]. split; [|discriminate].
    destruct (split_colon s) as [[p l]|]; discriminate.
  - destruct (iri_ok _); [split; [discriminate|now intros [H _]]|].
    assert (forall q m, split_colon (p ++ ":" ++ l) = Some (q, m) <->
                        p ++ ":" ++ l = q ++ ":" ++ m /\ ~ has ":" q) as Hs.
    { intros q m. apply split_some. }
    split.
    + destruct (split_colon (p ++ ":" ++ l)) as [[q m]|]; [|discriminate].
      intros H. injection H as -> ->. split; [reflexivity|]. exact (proj2 (proj1 (Hs p l) eq_refl)).
    + intros [_ Hp]. destruct (split_colon (p ++ ":" ++ l)) as [[q m]|].
      * assert (Some (q, m) = Some (p, l)) as E by (apply Hs; auto). now injection E as -> ->.
      * assert (None = Some (p, l)) as E by (apply Hs; auto). discriminate.
Qed.

Lemma label_iff l : label_from_str (show_label l) = Ok l <-> ok_label l.
Proof.
  unfold label_from_str. destruct l as [[s|p l]|b|]; cbn [show_label show_iri ok_label].
  - split.
    + destruct (angle s) as [t|] eqn:Ea.
      * destruct (iri_ok t); [|discriminate]. intros H. injection H as ->.
        apply angle_length in Ea. lia.
      * destruct (blank s) as [b|] eqn:Eb; [discriminate|].
        destruct (iri_ok s); [|discriminate]. intros _.
        repeat split; [now apply angle_none|now apply blank_none].
    + intros (Hi & Ha & Hb). apply angle_none in Ha. apply blank_none in Hb.
      now rewrite Ha, Hb, Hi.
  - split; [|contradiction].
    destruct (angle _) as [t|]; [destruct (iri_ok t); discriminate|].
    destruct (blank _); [discriminate|]. destruct (iri_ok _); discriminate.
  - rewrite angle_here, blank_here. rewrite <- angle_none. split.
    + destruct (angle b) as [t|]; [destruct (iri_ok t); discriminate|].
      intros H. injection H as H. split; [reflexivity|]. now apply to_eol_same.
    + intros [-> Hb]. now rewrite to_eol_id.
  - split; [|contradiction]. cbn. destruct (iri_ok _); discriminate.
Qed.

Lemma unescaped_blank b : unescaped ("_:" ++ b) <-> unescaped b.
Proof.
  rewrite <- !plain_spec. cbn. reflexivity.
Qed.

Lemma id_iff l : r_label (w_label l) = Ok l <-> ok_id l.
Proof.
  unfold r_label, w_label, r_borrowed, ok_id. cbn [r_str rbind].
  assert ((rbind (if plain (show_label l) then Ok (show_label l) else Err) label_from_str = Ok l) <->
          unescaped (show_label l) /\ ok_label l) as ->.
  { rewrite <- plain_spec, <- label_iff. destruct (plain (show_label l)); cbn; [tauto|].
    split; [discriminate|now intros [H _]]. }
  destruct l as [[s|p l]|b|]; cbn [show_label show_iri].
  - tauto.
  - cbn. tauto.
  - rewrite unescaped_blank. tauto.
  - cbn. tauto.
Qed.

Lemma tlabel_iff l : tlabel_from_str (show_tlabel l) = Ok l <-> ok_tlabel l.
Proof.
  unfold tlabel_from_str, iri_from_str. destruct l as [[s|p l]|b]; cbn [show_tlabel show_iri ok_tlabel];
    destruct (iri_ok _); cbn; split; intros H; try discriminate; try contradiction; auto.
Qed.

Lemma tid_iff l : r_tlabel (w_tlabel l) = Ok l <-> ok_tid l.
Proof.
  unfold r_tlabel, w_tlabel, r_borrowed, ok_tid. cbn [r_str rbind].
  assert ((rbind (if plain (show_tlabel l) then Ok (show_tlabel l) else Err) tlabel_from_str = Ok l) <->
          unescaped (show_tlabel l) /\ ok_tlabel l) as ->.
  { rewrite <- plain_spec, <- tlabel_iff. destruct (plain (show_tlabel l)); cbn; [tauto|].
    split; [discriminate|now intros [H _]]. }
  destruct l as [[s|p l]|b]; cbn; tauto.
Qed.

(* ------------------------------------------------------------------ *)
(* Literals and objects                                                 *)

Lemma int_iff z : parse_int (show_int z) = Some z <-> (- 2 ^ 63 <= z < 2 ^ 63)%Z.
Proof.
  rewrite parse_show_int.
  destruct (Z.leb_spec (- 2 ^ 63) z); destruct (Z.ltb_spec z (2 ^ 63)); cbn;
    split; intros H'; try discriminate; try lia; reflexivity.
Qed.

Lemma tag_iff {A : Type} (o : option string) l (f : string -> A) :
  (forall x, f x = f l -> x = l) ->
  ((l' <- of_opt o ; Ok (f l')) = Ok (f l) <-> o = Some l).
Proof.
  intros Hf. rewrite bind_ok. split.
  - intros (a & Ha & H). apply of_opt_ok in Ha. injection H as H. apply Hf in H. now subst.
  - intros ->. exists l. split; reflexivity.
Qed.

Lemma of_opt_inj {A B : Type} (o : option A) (a : A) (f : A -> B) :
  (forall x, f x = f a -> x = a) ->
  ((x <- of_opt o ; Ok (f x)) = Ok (f a) <-> o = Some a).
Proof.
  intros Hf. rewrite bind_ok. split.
  - intros (x & Hx & H). apply of_opt_ok in Hx. injection H as H. apply Hf in H. now subst.
  - intros ->. exists a. split; reflexivity.
Qed.

(* The literal that is read from the members that are written for a literal. *)
Definition lit_type (l : lit) : option string :=
  match l with
  | LitStr _ _ => None
  | LitData _ dt => Some (show_iri dt)
  | LitNum n => Some (number_type n)
  | LitDate _ => Some (xsd "datetime")
  | LitBool _ => Some (xsd "boolean")
  | LitWrong _ dt _ => Some (show_iri dt)
  end.

Definition lit_value (l : lit) : string :=
  match l with
  | LitStr s _ => s
  | LitData s _ => s
  | LitNum n => show_number n
  | LitDate t => t
  | LitBool b => if b then "true" else "false"
  | LitWrong s _ _ => s
  end.

Definition lit_lang (l : lit) : option string :=
  match l with LitStr _ lang => lang | _ => None end.

Lemma literal_iff l :
  (forall s dt e, l <> LitWrong s dt e) ->
  (r_literal (lit_type l) (Some (lit_value l)) (lit_lang l) None = Ok l <-> ok_lit builtin l).
Proof.
  intros Hw. destruct l as [s lang|s dt|n|t|b|s dt e];
    cbn [lit_type lit_value lit_lang ok_lit].
  - cbn. destruct lang as [g|]; cbn; [|tauto].
    apply (tag_iff (lang_new g) g (fun g => LitStr s (Some g))). intros x Hx. now injection Hx.
  - destruct dt as [t|p q].
    + cbn [show_iri r_literal builtin].
      destruct (String.eqb_spec t (xsd "boolean")) as [->|H1].
      { split; [|intros [_ H]; exfalso; apply H; now left].
        cbn [of_opt rbind]. destruct (String.eqb s "false"); [discriminate|].
        destruct (String.eqb s "true"); discriminate. }
      destruct (String.eqb_spec t (xsd "decimal")) as [->|H2].
      { split; [|intros [_ H]; exfalso; apply H; right; now left].
        cbn [of_opt rbind]. destruct (parse_dec s); discriminate. }
      destruct (String.eqb_spec t (xsd "double")) as [->|H3].
      { split; [|intros [_ H]; exfalso; apply H; right; right; now left].
        cbn [of_opt rbind]. destruct (parse_dbl s); discriminate. }
      destruct (String.eqb_spec t (xsd "integer")) as [->|H4].
      { split; [|intros [_ H]; exfalso; apply H; right; right; right; now left].
        cbn [of_opt rbind]. destruct (parse_int s); discriminate. }
      unfold iri_from_str. destruct (iri_ok t); cbn.
      * split; [intros _; split; [reflexivity|]|reflexivity].
        cbn in H1, H2, H3, H4. intros [H|[H|[H|[H|[]]]]]; auto.
      * split; [discriminate|now intros [H _]].
    + split; [|contradiction]. cbn [show_iri r_literal].
      destruct (String.eqb _ _).
      { cbn [of_opt rbind]. destruct (String.eqb s "false"); [discriminate|].
        destruct (String.eqb s "true"); discriminate. }
      destruct (String.eqb _ _); [cbn [of_opt rbind]; destruct (parse_dec s); discriminate|].
      destruct (String.eqb _ _); [cbn [of_opt rbind]; destruct (parse_dbl s); discriminate|].
      destruct (String.eqb _ _); [cbn [of_opt rbind]; destruct (parse_int s); discriminate|].
      unfold iri_from_str. destruct (iri_ok _); discriminate.
  - destruct n as [z|d|f|k t]; cbn [number_type show_number].
    + rewrite <- int_iff. unfold r_literal.
      change (String.eqb (xsd "integer") (xsd "boolean")) with false.
      change (String.eqb (xsd "integer") (xsd "decimal")) with false.
      change (String.eqb (xsd "integer") (xsd "double")) with false.
      rewrite String.eqb_refl. cbn [of_opt rbind].
      apply (of_opt_inj (parse_int (show_int z)) z (fun z => LitNum (NumInt z))). intros x Hx. now injection Hx.
    + unfold r_literal.
      change (String.eqb (xsd "decimal") (xsd "boolean")) with false.
      rewrite String.eqb_refl. cbn [of_opt rbind].
      apply (of_opt_inj (parse_dec (show_dec d)) d (fun d => LitNum (NumDec d))). intros x Hx. now injection Hx.
    + unfold r_literal.
      change (String.eqb (xsd "double") (xsd "boolean")) with false.
      change (String.eqb (xsd "double") (xsd "decimal")) with false.
      rewrite String.eqb_refl. cbn [of_opt rbind].
      apply (of_opt_inj (parse_dbl (show_dbl f)) f (fun d => LitNum (NumDbl d))). intros x Hx. now injection Hx.
    + split; [|contradiction]. unfold r_literal.
      assert (String.eqb (kind_type k) (xsd "boolean") = false) as -> by now destruct k.
      assert (String.eqb (kind_type k) (xsd "decimal") = false) as -> by now destruct k.
      assert (String.eqb (kind_type k) (xsd "double") = false) as -> by now destruct k.
      assert (String.eqb (kind_type k) (xsd "integer") = false) as -> by now destruct k.
      unfold iri_from_str. destruct (iri_ok _); cbn; discriminate.
  - split; [|contradiction]. unfold r_literal.
    change (String.eqb (xsd "datetime") (xsd "boolean")) with false.
    change (String.eqb (xsd "datetime") (xsd "decimal")) with false.
    change (String.eqb (xsd "datetime") (xsd "double")) with false.
    change (String.eqb (xsd "datetime") (xsd "integer")) with false.
    unfold iri_from_str. destruct (iri_ok _); cbn; discriminate.
  - destruct b; cbn; tauto.
  - exfalso. now apply (Hw s dt e).
Qed.

Lemma obj_lit_iff l : r_obj (w_lit l) = Ok (ObjLit l) <-> ok_lit builtin l.
Proof.
  destruct l as [s lang|s dt|n|t|b|s dt e] eqn:E;
    try (rewrite <- literal_iff by discriminate;
         rewrite <- (map_inj ObjLit) by (intros b' Hb; now injection Hb); reflexivity).
  - rewrite <- literal_iff by discriminate.
    rewrite <- (map_inj ObjLit) by (intros b' Hb; now injection Hb).
    destruct lang; reflexivity.
  - cbn. split; [discriminate|contradiction].
Qed.

Lemma obj_iff o : r_obj (w_obj o) = Ok o <-> ok_obj builtin o.
Proof.
  destruct o as [i|l]; cbn [w_obj ok_obj]; [|apply obj_lit_iff].
  cbn. rewrite <- absolute_iff. apply (map_inj ObjIri). intros b Hb. now injection Hb.
Qed.

(* ------------------------------------------------------------------ *)
(* Exclusions                                                           *)

Lemma visit_ok s : (exists i, iri_visit s = Ok i) <-> ~ no_name s.
Proof.
  unfold iri_visit, no_name. destruct (iri_ok s) eqn:Ei.
  - split; [intros _ [H _]; discriminate|]. intros _. now exists (Iri s).
  - destruct (split_colon s) as [[p l]|] eqn:E.
    + split; [|intros _; now exists (Prefixed p l)].
      intros _ [_ H]. apply split_none in H. congruence.
    + split; [intros (i & H); discriminate|]. intros H. exfalso. apply H.
      split; [reflexivity|]. now apply split_none.
Qed.

Lemma visit_no s : no_name s -> iri_visit s = Err.
Proof.
  intros [Hi Hc]. unfold iri_visit. rewrite Hi. apply split_none in Hc. now rewrite Hc.
Qed.

Lemma visit_yes s : ~ no_name s -> exists i, iri_visit s = Ok i.
Proof. apply visit_ok. Qed.

Lemma no_name_dec s : no_name s \/ ~ no_name s.
Proof.
  unfold no_name. destruct (iri_ok s); [right; intros [H _]; discriminate|].
  destruct (split_colon s) as [[p l]|] eqn:E.
  - right. intros [_ H]. apply split_none in H. congruence.
  - left. split; [reflexivity|now apply split_none].
Qed.

Definition exc_round {A : Type} (read : rawexc -> res (exc A)) (j : json) : res (exc A) :=
  rbind (r_exc j) read.

Lemma iri_exc_iff e : exc_round iri_exc (w_exc "IriStem" w_iri e) = Ok e <-> ok_iri_exc e.
Proof.
  destruct e as [i|i]; cbn [w_exc ok_iri_exc].
  - rewrite <- absolute_iff. cbn. rewrite bind_ok. split.
    + intros (a & Ha & H). injection H as ->. exact Ha.
    + intros H. now exists i.
  - rewrite <- name_iff. cbn. unfold exc_round. cbn. unfold r_iri. cbn.
    destruct (iri_visit (show_iri i)) as [k| |]; cbn; split; intros H; try discriminate;
      now injection H as ->.
Qed.

Lemma lit_exc_iff e : exc_round lit_exc (w_exc "LiteralStem" JStr e) = Ok e <-> ok_lit_exc e.
Proof.
  destruct e as [s|s]; cbn [w_exc ok_lit_exc].
  - cbn. tauto.
  - unfold exc_round. cbn. destruct (no_name_dec s) as [H|H].
    + rewrite (visit_no s H). cbn. tauto.
    + destruct (visit_yes s H) as (i & ->). cbn. split; [discriminate|contradiction].
Qed.

Lemma lang_exc_iff e : exc_round lang_exc (w_exc "LanguageStem" JStr e) = Ok e <-> ok_lang_exc e.
Proof.
  destruct e as [s|s]; cbn [w_exc ok_lang_exc].
  - cbn. apply (tag_iff (lang_new s) s Whole). intros x Hx. now injection Hx.
  - unfold exc_round. cbn. destruct (no_name_dec s) as [H|H].
    + rewrite (visit_no s H). cbn. unfold ok_tag. destruct (lang_new s) as [l|]; cbn.
      * split; [intros E; injection E as ->; auto|]. intros [_ E]. now injection E as ->.
      * split; [discriminate|intros [_ E]; discriminate].
    + destruct (visit_yes s H) as (i & ->). cbn. split; [discriminate|tauto].
Qed.

(* The two passes over the exclusions are one. *)
Lemma two_passes {A : Type} (read : rawexc -> res (exc A)) (js : list json) (r : list (exc A)) :
  (exists xs, all (map r_exc js) = Ok xs /\ all (map read xs) = Ok r) <->
  all (map (exc_round read) js) = Ok r.
Proof.
  rewrite all_ok. split.
  - intros (xs & H1 & H2). apply all_ok in H1. apply all_ok in H2.
    revert xs r H1 H2. induction js as [|j js IH]; intros xs r H1 H2; cbn in *.
    + inversion H1; subst. inversion H2; subst. constructor.
    + inversion H1 as [|? x ? xs' Hx Hxs]; subst. cbn in H2.
      inversion H2 as [|? e ? r' He Hr]; subst. constructor; [|now apply (IH xs')].
      unfold exc_round. now rewrite Hx.
  - revert r. induction js as [|j js IH]; intros r H; cbn in *.
    + inversion H; subst. exists []. split; reflexivity.
    + inversion H as [|? e ? r' He Hr]; subst. apply bind_ok in He as (x & Hx & He).
      destruct (IH r' Hr) as (xs & H1 & H2). exists (x :: xs). cbn. rewrite Hx, H1. cbn.
      now rewrite He, H2.
Qed.

Lemma excs_iff {A : Type} name (read : rawexc -> res (exc A)) (w : A -> json) (P : exc A -> Prop) es :
  (forall e, exc_round read (w_exc name w e) = Ok e <-> P e) ->
  ((exists xs, r_list r_exc (w_list (w_exc name w) es) = Ok xs /\ all (map read xs) = Ok es) <->
   Forall P es).
Proof.
  intros H. unfold w_list, r_list. rewrite two_passes. apply all_iff. apply Forall_forall. auto.
Qed.

(* ------------------------------------------------------------------ *)
(* Values of value sets                                                 *)

Lemma value_lit_iff l : r_value (w_lit l) = Ok (VObj (ObjLit l)) <-> ok_lit (builtin ++ reserved) l.
Proof.
  destruct l as [s lang|s dt|n|t|b|s dt e] eqn:E.
  - transitivity (ok_lit builtin (LitStr s lang)); [|reflexivity].
    rewrite <- literal_iff by discriminate.
    rewrite <- (map_inj (fun l => VObj (ObjLit l))) by (intros b' Hb; now injection Hb).
    destruct lang; reflexivity.
  - destruct dt as [t|p q].
    + cbn [ok_lit].
      destruct (in_dec string_dec t reserved) as [Hr|Hr].
      * split; [|intros [_ H]; exfalso; apply H; apply in_or_app; now right].
        repeat (destruct Hr as [<-|Hr]; [cbn; discriminate|]). destruct Hr.
      * transitivity (ok_lit builtin (LitData s (Iri t))).
        2:{ cbn [ok_lit]. rewrite in_app_iff. tauto. }
        rewrite <- literal_iff by discriminate.
        rewrite <- (map_inj (fun l => VObj (ObjLit l))) by (intros b' Hb; now injection Hb).
        cbn [w_lit w_iri show_iri lit_type lit_value lit_lang].
        unfold r_value. cbn -[r_literal reserved].
        replace (String.eqb t "LiteralStemRange") with false
          by (symmetry; apply String.eqb_neq; intros ->; apply Hr; cbn; tauto).
        replace (String.eqb t "LanguageStemRange") with false
          by (symmetry; apply String.eqb_neq; intros ->; apply Hr; cbn; tauto).
        replace (String.eqb t "IriStemRange") with false
          by (symmetry; apply String.eqb_neq; intros ->; apply Hr; cbn; tauto).
        replace (String.eqb t "LiteralStem") with false
          by (symmetry; apply String.eqb_neq; intros ->; apply Hr; cbn; tauto).
        replace (String.eqb t "LanguageStem") with false
          by (symmetry; apply String.eqb_neq; intros ->; apply Hr; cbn; tauto).
        replace (String.eqb t "Language") with false
          by (symmetry; apply String.eqb_neq; intros ->; apply Hr; cbn; tauto).
        replace (String.eqb t "IriStem") with false
          by (symmetry; apply String.eqb_neq; intros ->; apply Hr; cbn; tauto).
        reflexivity.
    + split; [|contradiction]. cbn [w_lit w_iri]. intros H.
      apply bind_ok in H as (u & _ & H). cbn -[r_literal show_iri] in H.
      repeat match type of H with
        | (if ?b then _ else _) = _ => destruct b; [try discriminate|]
        end.
      apply map_ok in H as (l' & H & Hl). injection Hl as ->.
      assert (ok_lit builtin (LitData s (Prefixed p q))) as Hok; [|exact Hok].
      apply literal_iff; [discriminate|]. exact H.
  - transitivity (ok_lit builtin (LitNum n)); [|destruct n; reflexivity].
    rewrite <- literal_iff by discriminate.
    rewrite <- (map_inj (fun l => VObj (ObjLit l))) by (intros b' Hb; now injection Hb).
    destruct n as [z|d|f|[] t]; reflexivity.
  - transitivity (ok_lit builtin (LitDate t)); [|reflexivity].
    rewrite <- literal_iff by discriminate.
    rewrite <- (map_inj (fun l => VObj (ObjLit l))) by (intros b' Hb; now injection Hb).
    reflexivity.
  - transitivity (ok_lit builtin (LitBool b)); [|reflexivity].
    rewrite <- literal_iff by discriminate.
    rewrite <- (map_inj (fun l => VObj (ObjLit l))) by (intros b' Hb; now injection Hb).
    reflexivity.
  - cbn. split; [discriminate|contradiction].
Qed.

Lemma lang_stem_iff o (P : option string -> value) :
  (forall x, P x = P o -> x = o) ->
  ((if String.eqb (match o with Some l => l | None => "" end) "" then Ok (P None)
    else l <- of_opt (lang_new (match o with Some l => l | None => "" end)) ; Ok (P (Some l)))
   = Ok (P o) <-> ok_opt ok_lang_stem o).
Proof.
  intros Hf. destruct o as [l|]; cbn; [|tauto].
  unfold ok_lang_stem. destruct (String.eqb_spec l "") as [->|Hl].
  - split; [|now intros [H _]]. intros H. injection H as H. apply Hf in H. discriminate.
  - rewrite bind_ok. split.
    + intros (x & Hx & H). injection H as H. apply Hf in H. injection H as ->.
      split; [exact Hl|]. now apply of_opt_ok.
    + intros [_ H]. exists l. split; [now apply of_opt_ok|reflexivity].
Qed.

Lemma lang_wild_iff o :
  lang_or_wild (Some (match o with Some l => l | None => "" end)) = Ok o <-> ok_opt ok_lang_stem o.
Proof.
  destruct o as [l|]; cbn; [|tauto].
  unfold ok_lang_stem. destruct (String.eqb_spec l "") as [->|Hl].
  - split; [discriminate|now intros [H _]].
  - rewrite bind_ok. split.
    + intros (x & Hx & H). injection H as ->. split; [exact Hl|]. now apply of_opt_ok.
    + intros [_ H]. exists l. split; [now apply of_opt_ok|reflexivity].
Qed.

Lemma stem_wild (o : option string) : r_stem (w_wild JStr o) = Ok o.
Proof. destruct o; reflexivity. Qed.

Lemma iri_wild_iff o :
  (s <- r_stem (w_wild w_iri o) ; iri_or_wild s) = Ok o <-> ok_opt ok_absolute o.
Proof.
  destruct o as [i|]; cbn; [|tauto]. rewrite <- absolute_iff. apply (map_inj Some).
  intros b Hb. now injection Hb.
Qed.

Lemma value_iff v : r_value (w_value v) = Ok v <-> ok_value v.
Proof.
  destruct v as [stem|stem es|stem|stem es|tag|stem|stem es|o]; cbn [w_value ok_value].
  - cbn. rewrite <- absolute_iff. apply (map_inj VIriStem). intros b Hb. now injection Hb.
  - destruct es as [es|]; cbn [w_opt_list ok_some].
    2:{ split; [|now intros [_ []]]. cbn -[w_wild]. destruct (r_stem _); discriminate. }
    rewrite <- iri_wild_iff, <- (excs_iff "IriStem" iri_exc w_iri ok_iri_exc es iri_exc_iff).
    unfold r_value.
    cbn -[r_stem r_list w_list w_wild iri_or_wild]. split.
    + intros H. apply bind_ok in H as (o & Ho & H). apply map_ok in Ho as (st & Hst & <-).
      apply bind_ok in H as (xs & Hxs & H). apply map_ok in Hxs as (ys & Hys & <-).
      cbn -[r_stem r_list w_list w_wild iri_or_wild] in H.
      apply bind_ok in H as (zs & Hzs & H). apply bind_ok in H as (st' & Hst' & H).
      injection H as -> ->. split; [now rewrite Hst|]. now exists ys.
    + intros (Hs & ys & Hys & Hzs). apply bind_ok in Hs as (st & Hst & Hst').
      rewrite Hst, Hys. cbn -[iri_or_wild]. rewrite Hzs. cbn -[iri_or_wild]. now rewrite Hst'.
  - cbn. tauto.
  - destruct es as [es|]; cbn [w_opt_list ok_some].
    2:{ split; [|now intros []]. cbn -[w_wild]. destruct (r_stem _); discriminate. }
    rewrite <- (excs_iff "LiteralStem" lit_exc JStr ok_lit_exc es lit_exc_iff).
    unfold r_value.
    cbn -[r_stem r_list w_list w_wild]. rewrite stem_wild. cbn -[r_stem r_list w_list w_wild]. split.
    + intros H. apply bind_ok in H as (xs & Hxs & H). apply map_ok in Hxs as (ys & Hys & <-).
      cbn -[r_stem r_list w_list w_wild] in H.
      apply bind_ok in H as (zs & Hzs & H). injection H as ->. now exists ys.
    + intros (ys & Hys & Hzs). rewrite Hys. cbn. now rewrite Hzs.
  - cbn. apply (tag_iff (lang_new tag) tag VLang). intros x Hx. now injection Hx.
  - rewrite <- (lang_stem_iff stem VLangStem) by (intros x Hx; now injection Hx).
    destruct stem; reflexivity.
  - destruct es as [es|]; cbn [w_opt_list ok_some].
    2:{ split; [|now intros [_ []]]. cbn. destruct stem; discriminate. }
    rewrite <- lang_wild_iff, <- (excs_iff "LanguageStem" lang_exc JStr ok_lang_exc es lang_exc_iff).
    replace (w_lang_wild stem) with (JStr (match stem with Some l => l | None => "" end))
      by now destruct stem.
    unfold r_value.
    cbn -[r_list w_list lang_or_wild]. split.
    + intros H. 
      apply bind_ok in H as (xs & Hxs & H). apply map_ok in Hxs as (ys & Hys & <-).
      cbn -[r_stem r_list w_list w_wild lang_or_wild] in H.
      apply bind_ok in H as (zs & Hzs & H). apply bind_ok in H as (st' & Hst' & H).
      injection H as -> ->. split; [exact Hst'|]. now exists ys.
    + intros (Hs & ys & Hys & Hzs). rewrite Hys. cbn -[lang_or_wild]. rewrite Hzs.
      cbn -[lang_or_wild]. now rewrite Hs.
  - destruct o as [i|l]; cbn [w_obj ok_obj]; [|apply value_lit_iff].
    cbn. rewrite <- absolute_iff. apply (map_inj (fun i => VObj (ObjIri i))).
    intros b Hb. now injection Hb.
Qed.

End Values.
