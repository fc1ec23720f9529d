(** Reading the sentences of the grammar: shape expressions, triple
    expressions, statements. *)
From Coq Require Import String List ZArith Bool Lia.
From Verif Require Import PsModel PsSpec PsLemmas.
Import ListNotations.
Local Open Scope string_scope.
Local Open Scope list_scope.

(** * What follows an expression *)

Definition next_words : list string := ["AND"; "OR"; "BASE"; "PREFIX"; "IMPORT"; "START"; "ABSTRACT"].
Inductive after_atom (inl : bool) : tok -> Prop :=
| aa_word w : In w next_words -> after_atom inl (TWord w)
| aa_name p l : clear p -> after_atom inl (TName p l)
| aa_iri i : after_atom inl (TIri i)
| aa_bnode x : after_atom inl (TBnode x)
| aa_range mn x : after_atom inl (TRange mn x)
| aa_punct p : In p [PRBrace; PRPar; PSemi; PBar; PStar; PPlus; PQuest] -> after_atom inl (TP p)
| aa_attr p : inl = true -> In p [PSlashes; PPercent] -> after_atom inl (TP p).
Definition after_and (inl : bool) (t : tok) : Prop := after_atom inl t /\ t <> TWord "AND".
Definition after_or (inl : bool) (t : tok) : Prop := after_and inl t /\ t <> TWord "OR".

Lemma after_cases inl t : after_atom inl t ->
  (calm t /\ (forall x, t <> TRegex x) /\ (forall x, t <> TRef x) /\ (forall x, t <> TVals x)
    /\ ~ In t [TP PAmp; TP PLBrace; TP PLPar; TP PDot]
    /\ (inl = false -> t <> TP PSlashes /\ t <> TP PPercent))
  \/ exists w, t = TWord w /\ In w next_words.
Proof.
  intros H. destruct H as [w Hw|p l Hp| | | |p Hp|p Hi Hp]; [right; eauto|left..];
    (split; [first [exact Hp|exact Logic.I]|]).
  all: repeat split; try discriminate.
  all: try (cbn; intuition discriminate).
  all: cbn in Hp; try (intros G; cbn in G); intuition (subst; discriminate).
Qed.

Ltac on_words H :=
  let w := fresh "w" in
  destruct H as (w & -> & H); cbn [next_words In] in H;
  repeat (destruct H as [<-|H]); try contradiction.

Lemma after_no_facet inl rest : starts (after_atom inl) rest -> no_facet rest.
Proof.
  intros H b. destruct rest as [|[d t] r]; [reflexivity|]. cbn [setf]. cbn in H.
  apply after_cases in H. destruct H as [(Q & H & _)|H].
  - apply xs_facet_quiet; [apply calm_quiet, Q|exact H].
  - on_words H; destruct b; reflexivity.
Qed.
Lemma after_no_non_lit inl rest n b : starts (after_atom inl) rest ->
  non_lit_node_constraint n (setf b rest) = Err.
Proof.
  intros H. destruct rest as [|[d t] r]; [reflexivity|]. cbn [setf]. cbn in H.
  apply after_cases in H. destruct H as [(Q & H & _)|H].
  - apply non_lit_quiet; [apply calm_quiet, Q|exact H].
  - on_words H; destruct b; reflexivity.
Qed.
Lemma many0_err {A} n (p : parser A) i : 0 < n -> p i = Err -> many0 n p i = Ok [] i.
Proof. intros Hn H. destruct n; [lia|]. cbn. rewrite H. reflexivity. Qed.
(** No shape and no reference. *)
Lemma no_sub inl n te t b r : 0 < n -> qualifier n ((b, t) :: r) = Err -> t <> TP PLBrace -> (forall x, t <> TRef x) ->
  shape_or_ref n te inl ((b, t) :: r) = Err.
Proof.
  intros Hn Hq Hb Hr.
  assert (E : token_tws PLBrace ((b, t) :: r) = Err).
  { unfold token_tws. cbn [tws0]. unfold char. destruct t as [w|p l|i|x|z|x|x|x|x|x|x|mn x|[]]; try reflexivity. congruence. }
  unfold shape_or_ref, alt, map.
  assert (E2 : (if inl then inline_shape_definition n te else shape_definition n te) ((b, t) :: r) = Err).
  { destruct inl; unfold inline_shape_definition, shape_definition, qualifiers;
      rewrite (many0_err n (qualifier n) _ Hn Hq); cbn [bind]; rewrite E; reflexivity. }
  rewrite E2. unfold shape_ref. destruct b; [reflexivity|]. destruct t; try reflexivity. exfalso. eapply Hr. reflexivity.
Qed.
Lemma after_no_sub inl rest n te b : 0 < n -> starts (after_atom inl) rest ->
  shape_or_ref n te inl (setf b rest) = Err.
Proof.
  intros Hn H. destruct rest as [|[d t] r].
  - destruct n; [lia|]. destruct inl; reflexivity.
  - cbn [setf]. cbn in H. apply after_cases in H. destruct H as [(Q & _ & H1 & _ & H2 & _)|H].
    + cbn [In] in H2. apply no_sub; [exact Hn| |intros ->; tauto|exact H1].
      apply qualifier_quiet; [apply calm_quiet, Q|intros ->; tauto].
    + on_words H; (apply no_sub; [exact Hn|destruct b; reflexivity|discriminate|discriminate]).
Qed.
Lemma after_no_attr rest : starts (after_atom false) rest ->
  starts (fun t => t <> TP PSlashes /\ t <> TP PPercent) rest.
Proof.
  apply starts_imp. intros t H. apply after_cases in H. destruct H as [(_ & _ & _ & _ & _ & H)|(w & -> & _)].
  - apply H. reflexivity.
  - split; discriminate.
Qed.
Lemma symbol_none k inl rest b : In k ["AND"; "OR"] -> starts (fun t => after_atom inl t /\ t <> TWord k) rest ->
  symbol k (setf b rest) = Err.
Proof.
  intros Hk H. destruct rest as [|[d t] r]; [reflexivity|]. cbn [setf]. cbn in H. destruct H as [H Hn].
  apply after_cases in H. destruct H as [(Q & _)|H].
  - unfold symbol, word_tws. cbn [tws0]. rewrite (calm_quiet t Q); [reflexivity|].
    cbn in Hk. destruct Hk as [<-|[<-|[]]]; inwords.
  - cbn in Hk. destruct Hk as [<-|[<-|[]]]; on_words H; congruence || reflexivity.
Qed.

(** * Node constraints *)

Lemma facet_toks_pos f : 0 < length (facet_toks f).
Proof. destruct f as [[]| |[]|[]]; cbn; lia. Qed.
Lemma facets_len fs : length fs <= length (flat_map facet_toks fs).
Proof.
  induction fs as [|f fs IH]; cbn; [lia|]. rewrite app_length. pose proof (facet_toks_pos f). lia.
Qed.

Lemma non_lit_reads c rest n a b0 : non_lit c -> plain_node c -> length (node_toks c) <= n -> no_facet rest ->
  List.map snd a = node_toks c -> b0 = false \/ no_strings c ->
  exists b, non_lit_node_constraint n (setf b0 (a ++ rest)) = Ok (node_tree c) (setf b rest).
Proof.
  intros Hc Hp Hn Hno Ha Hb. destruct c as [k fs|fs|d fs|v fs|fs]; cbn in Hc; try contradiction.
  - cbn [node_toks] in *. apply lay_cons in Ha. destruct Ha as (b1 & a1 & -> & Ha).
    pose proof (facets_len fs) as Hl. cbn in Hn.
    assert (Hs : Forall is_string fs) by (destruct k; [exact Hc|exact Hc|exact Hc|contradiction]).
    destruct (string_facets_reads fs rest n a1 Hp Hs Hno ltac:(lia) Ha) as [b E].
    exists b. unfold non_lit_node_constraint, alt. cbn [app setf].
    assert (Ek : non_literal_kind ((b0, TWord (kind_word k)) :: a1 ++ rest) = Ok k (setf false (a1 ++ rest)))
      by (rewrite <- tws0_setf; destruct k; try reflexivity; contradiction).
    rewrite Ek. cbn [bind]. unfold map. rewrite E. reflexivity.
  - destruct Hb as [->|[]]. destruct Hc as [Hne Hs]. cbn [node_toks] in *. pose proof (facets_len fs) as Hl.
    destruct fs as [|f fs]; [congruence|].
    destruct (string_facets_reads (f :: fs) rest (S n) a Hp Hs Hno ltac:(lia) Ha) as [b E].
    exists b. unfold non_lit_node_constraint, alt.
    cbn [flat_map] in Ha.
    assert (Ek : non_literal_kind (setf false (a ++ rest)) = Err).
    { inversion Hs as [|? ? Hf _]; subst.
      destruct f as [[] z|x|k v|k z]; cbn in Hf; try contradiction; cbn in Ha;
        apply lay_cons in Ha; destruct Ha as (b1 & a1 & -> & Ha); reflexivity. }
    rewrite Ek. cbn [bind]. unfold map, many1. cbn [many0] in E.
    destruct (string_facet (setf false (a ++ rest))); cbn [bind] in *; try discriminate.
    rewrite E. reflexivity.
Qed.

(** The beginnings of facets of numbers. *)
Lemma numeric_first f a r n : is_numeric f -> List.map snd a = facet_toks f ->
  non_lit_node_constraint n (setf false (a ++ r)) = Err
  /\ literal_facets n (setf false (a ++ r)) = Err /\ datatype_facets n (setf false (a ++ r)) = Err
  /\ value_set_facets n (setf false (a ++ r)) = Err.
Proof.
  intros Hs Ha. destruct f as [k z|x|k v|k z]; try (exfalso; apply Hs; exact Logic.I); destruct k; cbn in Ha;
    apply lay_cons in Ha; destruct Ha as (b1 & a1 & -> & Ha); repeat split; reflexivity.
Qed.

Lemma lit_reads c rest n a : lit c -> plain_node c -> clear_names (node_toks c) ->
  length (node_toks c) <= n -> no_facet rest -> List.map snd a = node_toks c ->
  non_lit_node_constraint n (setf false (a ++ rest)) = Err
  /\ exists b, lit_node_constraint n (setf false (a ++ rest)) = Ok (node_tree c) (setf b rest).
Proof.
  intros Hc Hp Hcl Hn Hno Ha. destruct c as [k fs|fs|d fs|v fs|fs]; cbn in Hc; try contradiction; cbn [node_toks] in *;
    pose proof (facets_len fs) as Hl.
  - destruct k; try contradiction.
    apply lay_cons in Ha. destruct Ha as (b1 & a1 & -> & Ha). split; [reflexivity|]. cbn in Hn.
    destruct (xs_facets_reads fs rest n a1 Hp Hno ltac:(lia) Ha) as [b E]. exists b.
    unfold lit_node_constraint, alt, literal_facets. cbn [app setf kind_word].
    replace (word true "LITERAL" ((false, TWord "LITERAL") :: a1 ++ rest)) with (Ok tt (a1 ++ rest)) by reflexivity.
    cbn [bind]. unfold map. rewrite tws0_setf, E. reflexivity.
  - apply lay_cons in Ha. destruct Ha as (b1 & a1 & -> & Ha). cbn in Hn.
    assert (Q : quiet (iri_tok d)).
    { apply calm_quiet. destruct d as [p l|u|]; cbn; try exact Logic.I; [|congruence].
      apply (Hcl p l). left. reflexivity. }
    assert (Hx : forall x, iri_tok d <> TRegex x) by (destruct d; discriminate).
    split; [apply non_lit_quiet; assumption|].
    destruct (xs_facets_reads fs rest n a1 Hp Hno ltac:(lia) Ha) as [b E]. exists b.
    unfold lit_node_constraint, alt, literal_facets, datatype_facets. cbn [app setf].
    rewrite Q by inwords. cbn [bind]. rewrite (iri_reads d _ Hc). cbn [bind]. unfold map. rewrite tws0_setf, E. reflexivity.
  - apply lay_cons in Ha. destruct Ha as (b1 & a1 & -> & Ha). cbn in Hn. split; [reflexivity|].
    destruct (xs_facets_reads fs rest n a1 Hp Hno ltac:(lia) Ha) as [b E]. exists b.
    unfold lit_node_constraint, alt. cbn [app setf].
    replace (literal_facets n ((false, TVals v) :: a1 ++ rest)) with (@Err nodec) by reflexivity.
    replace (datatype_facets n ((false, TVals v) :: a1 ++ rest)) with (@Err nodec) by reflexivity.
    unfold value_set_facets, value_set. cbn [tws0 bind]. unfold map.
    rewrite (tws0_setf (a1 ++ rest)), tws0_set, E. reflexivity.
  - destruct Hc as [Hne Hnum]. destruct fs as [|f fs]; [congruence|].
    pose proof Ha as Ha0. cbn [flat_map] in Ha. apply lay_app in Ha. destruct Ha as (a1 & a2 & -> & Ha1 & Ha2).
    inversion Hnum as [|? ? Hf _]; subst. rewrite <- app_assoc.
    destruct (numeric_first f a1 (a2 ++ rest) n Hf Ha1) as (E1 & E2 & E3 & E4). split; [exact E1|].
    destruct (numeric_list numeric_facet (f :: fs) rest (S n) (a1 ++ a2) false numeric_facet_reads
                (no_facet_numeric rest Hno) Hnum (proj1 Hp) ltac:(lia) Ha0) as [b E].
    exists b. unfold lit_node_constraint, alt. rewrite E2, E3, E4.
    unfold numeric_facets, map, many1. rewrite <- app_assoc in E. cbn [many0] in E.
    destruct (numeric_facet (setf false (a1 ++ a2 ++ rest))); cbn [bind] in *; try discriminate. rewrite E. reflexivity.
Qed.

(** * The brackets of grammar rules *)

Lemma all_or inl k l : (fix all l := match l with
    | [] => True
    | c :: l => (level c <= k /\ shape_syntax inl c) /\ all l end) l
  <-> Forall (fun c => level c <= k /\ shape_syntax inl c) l.
Proof.
  induction l as [|c l IH]; split; intros H; [constructor|exact Logic.I| |].
  - destruct H as [H1 H2]. constructor; [exact H1|]. apply IH, H2.
  - inversion H; subst. split; [assumption|]. apply IH. assumption.
Qed.
Lemma all_plain inl l : (fix all l := match l with [] => True | c :: l => plain inl c /\ all l end) l
  <-> Forall (plain inl) l.
Proof.
  induction l as [|c l IH]; split; intros H; [constructor|exact Logic.I| |].
  - destruct H as [H1 H2]. constructor; [exact H1|]. apply IH, H2.
  - inversion H; subst. split; [assumption|]. apply IH. assumption.
Qed.
Lemma all_one k l : (fix all l := match l with
    | [] => True
    | c :: l => (tlevel c <= k /\ triple_syntax c) /\ all l end) l
  <-> Forall (fun c => tlevel c <= k /\ triple_syntax c) l.
Proof.
  induction l as [|c l IH]; split; intros H; [constructor|exact Logic.I| |].
  - destruct H as [H1 H2]. constructor; [exact H1|]. apply IH, H2.
  - inversion H; subst. split; [assumption|]. apply IH. assumption.
Qed.
Lemma all_each l : (fix all l := match l with
    | [] => True
    | c :: l => (tlevel c = 0 /\ triple_syntax c) /\ all l end) l
  <-> Forall (fun c => tlevel c = 0 /\ triple_syntax c) l.
Proof.
  induction l as [|c l IH]; split; intros H; [constructor|exact Logic.I| |].
  - destruct H as [H1 H2]. constructor; [exact H1|]. apply IH, H2.
  - inversion H; subst. split; [assumption|]. apply IH. assumption.
Qed.
Lemma all_plain_te l : (fix all l := match l with [] => True | c :: l => plain_te c /\ all l end) l
  <-> Forall plain_te l.
Proof.
  induction l as [|c l IH]; split; intros H; [constructor|exact Logic.I| |].
  - destruct H as [H1 H2]. constructor; [exact H1|]. apply IH, H2.
  - inversion H; subst. split; [assumption|]. apply IH. assumption.
Qed.

Lemma between_cons t x l : between t (x :: l) = x ++ flat_map (fun y => t :: y) l.
Proof.
  revert x. induction l as [|y l IH]; intros x; [cbn; rewrite app_nil_r; reflexivity|].
  change (between t (x :: y :: l)) with (x ++ t :: between t (y :: l)). rewrite IH. reflexivity.
Qed.
Lemma flat_map_map {A B C} (f : B -> list C) (g : A -> B) l : flat_map f (List.map g l) = flat_map (fun x => f (g x)) l.
Proof. induction l as [|x l IH]; cbn; [reflexivity|]. rewrite IH. reflexivity. Qed.

Lemma clear_app xs ys : clear_names (xs ++ ys) <-> clear_names xs /\ clear_names ys.
Proof.
  unfold clear_names. split.
  - intros H. split; intros p l Hin; apply (H p l), in_or_app; auto.
  - intros [H1 H2] p l Hin. apply in_app_or in Hin. destruct Hin; eauto.
Qed.
Lemma clear_cons t xs : clear_names (t :: xs) -> clear_names xs.
Proof. intros H p l Hin. apply (H p l). right. exact Hin. Qed.
Lemma clear_flat {A} (f : A -> list tok) l x : clear_names (flat_map f l) -> In x l -> clear_names (f x).
Proof. intros H Hin p k Hp. apply (H p k), in_flat_map. eauto. Qed.
Lemma len_flat {A B} (f : A -> list B) l x : In x l -> length (f x) <= length (flat_map f l).
Proof.
  induction l as [|y l IH]; [intros []|]. intros [->|H]; cbn; rewrite app_length; [lia|]. specialize (IH H). lia.
Qed.
Lemma len_items {A} (t : tok) (f : A -> list tok) l : length l <= length (flat_map (fun x => t :: f x) l).
Proof. induction l as [|x l IH]; cbn; [lia|]. rewrite app_length. lia. Qed.

(** The first token of an atom. *)
Definition atom_words : list string :=
  ["IRI"; "BNODE"; "NONLITERAL"; "LITERAL"; "LENGTH"; "MINLENGTH"; "MAXLENGTH"; "MININCLUSIVE"; "MAXINCLUSIVE";
   "MINEXCLUSIVE"; "MAXEXCLUSIVE"; "TOTALDIGITS"; "FRACTIONDIGITS"; "CLOSED"; "EXTRA"; "EXTENDS"].
Definition atom_start (t : tok) : Prop := calm t \/ exists w, t = TWord w /\ In w atom_words.
Lemma atom_not t b r : atom_start t -> symbol "NOT" ((b, t) :: r) = Err.
Proof.
  intros [Q|(w & -> & H)].
  - unfold symbol, word_tws. cbn [tws0]. rewrite (calm_quiet t Q); [reflexivity|]. inwords.
  - cbn [atom_words In] in H. repeat (destruct H as [<-|H]); try contradiction; reflexivity.
Qed.
Ltac aword := right; eexists; split; [reflexivity|cbn; tauto].
Lemma facet_first f : exists t ts, facet_toks f = t :: ts /\ atom_start t.
Proof.
  destruct f as [[] z|x|[] v|[] z]; cbn; eexists _, _; (split; [reflexivity|]); try aword. left. exact Logic.I.
Qed.
Lemma node_first c : non_lit c \/ lit c -> clear_names (node_toks c) ->
  exists t ts, node_toks c = t :: ts /\ atom_start t.
Proof.
  intros Hc Hcl. destruct c as [k fs|fs|d fs|v fs|fs]; cbn [node_toks] in *.
  - eexists _, _. split; [reflexivity|]. destruct k; aword.
  - destruct Hc as [[Hne _]|[]]. destruct fs as [|f fs]; [congruence|]. cbn [flat_map].
    destruct (facet_first f) as (t & ts & E & H). rewrite E. cbn. eauto.
  - eexists _, _. split; [reflexivity|]. left. destruct Hc as [[]|Hc]. destruct d as [p l|u|]; try exact Logic.I.
    + apply (Hcl p l). left. reflexivity.
    + exfalso. apply Hc. reflexivity.
  - eexists _, _. split; [reflexivity|]. left. exact Logic.I.
  - destruct Hc as [[]|[Hne _]]. destruct fs as [|f fs]; [congruence|]. cbn [flat_map].
    destruct (facet_first f) as (t & ts & E & H). rewrite E. cbn. eauto.
Qed.
Lemma sub_first s : exists t ts, sr_toks s = t :: ts /\ ((exists l, t = TRef l) \/ qual_start t).
Proof.
  destruct s as [qs t an ac|l]; cbn [sr_toks]; [|eauto 10].
  destruct qs as [|q qs]; cbn [flat_map app].
  - eexists _, _. split; [reflexivity|]. right. left. reflexivity.
  - destruct (qual_toks_start q) as (x & xs & E & H). rewrite E. cbn. eauto 10.
Qed.
Lemma sub_start t : (exists l, t = TRef l) \/ qual_start t -> atom_start t.
Proof.
  intros [[l ->]|[->|[->|H]]]; try (left; exact Logic.I).
  right. cbn in H. destruct H as [<-|[<-|[<-|[]]]]; eexists; (split; [reflexivity|cbn; tauto]).
Qed.
Lemma atom_first inl c : level c = 0 -> shape_syntax inl c -> clear_names (se_toks c) ->
  exists t ts, se_toks c = t :: ts /\ atom_start t.
Proof.
  intros Hl Hs Hcl. destruct c as [l|l|c|c s|c|s c|c|]; cbn in Hl; try discriminate; cbn [se_toks] in *.
  - cbn in Hs. apply clear_app in Hcl. destruct (node_first c) as (t & ts & E & H); [tauto|tauto|].
    rewrite E. cbn. eauto.
  - apply node_first; [right; exact Hs|exact Hcl].
  - destruct (sub_first s) as (t & ts & E & H). rewrite E. cbn. exists t. eexists. split; [reflexivity|]. apply sub_start, H.
  - eexists _, _. split; [reflexivity|]. left. exact Logic.I.
  - eexists _, _. split; [reflexivity|]. left. exact Logic.I.
Qed.
(** On the beginning of a shape or a reference no node constraint is found. *)
Lemma sub_no_node n t b r : (exists l, t = TRef l) \/ qual_start t ->
  non_lit_node_constraint n ((b, t) :: r) = Err /\ lit_node_constraint n ((b, t) :: r) = Err.
Proof.
  intros [[l ->]|[->|[->|H]]]; try (split; destruct b; reflexivity).
  cbn in H. destruct H as [<-|[<-|[<-|[]]]]; split; destruct b; reflexivity.
Qed.

(** * Triple expressions: what follows them *)

Definition after_unary (t : tok) : Prop := In t [TP PSemi; TP PBar; TP PRPar; TP PRBrace].
Definition after_group (t : tok) : Prop := In t [TP PBar; TP PRPar; TP PRBrace].
Definition after_te (t : tok) : Prop := In t [TP PRPar; TP PRBrace].

Lemma with_all_bare id c an ac t : bare t = true ->
  obind (with_all (match fst (card_tree c), snd (card_tree c) with Some x, Some y => Some (x, y) | _, _ => None end)
           an (some ac) t) (with_id id)
  = Some (attach id (fst (card_tree c)) (snd (card_tree c)) (some ac) (some an) t).
Proof.
  intros H. destruct t as [i l mn mx a n|i l mn mx a n|i ng iv p v mn mx a n|l]; cbn in H; [| | |discriminate];
    destruct i; try discriminate; destruct mn; try discriminate; destruct mx; try discriminate;
    destruct a; try discriminate; destruct n; try discriminate;
    destruct c as [[| | |m []]|]; destruct an; reflexivity.
Qed.

Section Reading.
Variable n : nat.
Variable rec_se : bool -> parser se.
Variable rec_te : parser te.
Hypothesis HSE : forall inl c a rest, length (se_toks c) + 2 <= n ->
  shape_syntax inl c -> plain inl c -> clear_names (se_toks c) -> List.map snd a = se_toks c ->
  starts (after_or inl) rest ->
  exists b, rec_se inl (setf false (a ++ rest)) = Ok (se_tree c) (setf b rest).
Hypothesis HTE : forall c a rest, length (te_toks c) + 2 <= n ->
  triple_syntax c -> plain_te c -> clear_names (te_toks c) -> List.map snd a = te_toks c ->
  starts after_te rest ->
  exists b, rec_te (setf false (a ++ rest)) = Ok (te_tree c) (setf b rest).
Hypothesis HTE0 : forall r, 1 <= n -> rec_te ((false, TP PRBrace) :: r) = Err.

(** ** Shape expressions *)

Lemma body_reads t a b r : length (match t with Some t => te_toks t | None => [] end) + 2 <= n ->
  match t with Some t => triple_syntax t | None => True end ->
  match t with Some t => plain_te t | None => True end ->
  clear_names (match t with Some t => te_toks t | None => [] end) ->
  List.map snd a = match t with Some t => te_toks t | None => [] end ->
  exists r', maybe_triple_expr rec_te (setf false (a ++ (b, TP PRBrace) :: r)) =
               Ok (match t with Some t => Some (te_tree t) | None => None end) r'
             /\ token_tws PRBrace r' = Ok tt (setf false r).
Proof.
  intros Hn Hs Hp Hc Ha. unfold maybe_triple_expr, alt, map. destruct t as [t|].
  - destruct (HTE t a ((b, TP PRBrace) :: r) Hn Hs Hp Hc Ha) as [b' E]; [cbn; tauto|].
    rewrite E. eexists. split; [reflexivity|]. rewrite <- (tws0_setf r). reflexivity.
  - apply lay_nil in Ha. subst a. cbn [app setf]. rewrite HTE0 by lia. cbn [bind].
    eexists. split; [reflexivity|]. rewrite <- (tws0_setf r). reflexivity.
Qed.

Lemma sub_reads inl s a rest : sub_syntax inl s -> plain_sub inl s -> clear_names (sr_toks s) ->
  length (sr_toks s) + 1 <= n -> List.map snd a = sr_toks s ->
  starts (fun t => inl = true \/ t <> TP PSlashes /\ t <> TP PPercent) rest ->
  exists b, shape_or_ref n rec_te inl (setf false (a ++ rest)) = Ok (sr_tree s) (setf b rest).
Proof.
  intros Hs Hp Hc Hn Ha Hf. destruct s as [qs t an ac|l]; cbn [sr_toks sub_syntax plain_sub] in *.
  - destruct Hs as (Hq & Ht & Han & Hac & Hi). destruct Hp as (Hpt & Hpe).
    apply lay_app in Ha. destruct Ha as (a1 & a2 & -> & Ha1 & Ha2).
    apply lay_cons in Ha2. destruct Ha2 as (b2 & a3 & -> & Ha3).
    apply lay_app in Ha3. destruct Ha3 as (a4 & a5 & -> & Ha4 & Ha5).
    apply lay_cons in Ha5. destruct Ha5 as (b5 & a6 & -> & Ha6).
    repeat rewrite <- app_assoc. cbn [app]. repeat rewrite <- app_assoc. cbn [app].
    rewrite !app_length in Hn. cbn [length] in Hn. rewrite !app_length in Hn. cbn [length] in Hn.
    apply clear_app in Hc. destruct Hc as [_ Hc]. apply clear_cons, clear_app in Hc. destruct Hc as [Hc _].
    destruct (qualifiers_read qs ((b2, TP PLBrace) :: a4 ++ (b5, TP PRBrace) :: a6 ++ rest) n a1 false Hq
                ltac:(lia) ltac:(eauto) Ha1) as [b1 Eq].
    assert (Eb : token_tws PLBrace (setf b1 ((b2, TP PLBrace) :: a4 ++ (b5, TP PRBrace) :: a6 ++ rest))
                 = Ok tt (setf false (a4 ++ (b5, TP PRBrace) :: a6 ++ rest)))
      by (rewrite <- tws0_setf; reflexivity).
    destruct (body_reads t a4 b5 (a6 ++ rest) ltac:(lia) Ht Hpt Hc Ha4) as (r' & Et & Er).
    assert (Ean : length an <= length (flat_map annot_toks an)).
    { clear. induction an as [|x an IH]; cbn; [lia|]. lia. }
    assert (Eac : length ac <= length (flat_map act_toks ac)).
    { clear. induction ac as [|x ac IH]; cbn; [lia|]. lia. }
    rewrite app_length in Hn.
    unfold shape_or_ref, alt, map. destruct inl.
    + destruct (Hi eq_refl) as [-> ->]. cbn in Ha6. apply lay_nil in Ha6. subst a6. cbn [app] in *.
      unfold inline_shape_definition. rewrite Eq. cbn [bind]. rewrite Eb. cbn [bind]. rewrite Et. cbn [bind].
      rewrite Er. cbn [bind]. rewrite extends_val, (Hpe eq_refl), closed_val, extra_val. cbn [some].
      exists false. cbn [sr_tree]. rewrite (Hpe eq_refl). reflexivity.
    + destruct (attributes_read an ac rest n a6 false Han Hac ltac:(lia) ltac:(lia)) as (r2 & E1 & E2).
      * eapply starts_imp; [|exact Hf]. intros u [|H]; [discriminate|exact H].
      * exact Ha6.
      * unfold shape_definition. rewrite Eq. cbn [bind]. rewrite Eb. cbn [bind]. rewrite Et. cbn [bind].
        rewrite Er. cbn [bind]. rewrite E1. cbn [bind]. rewrite E2. cbn [bind].
        rewrite extends_val, closed_val, extra_val. exists false. reflexivity.
  - apply lay_cons in Ha. destruct Ha as (b1 & a1 & -> & Ha). apply lay_nil in Ha. subst a1.
    destruct (setf_self rest) as [b E]. exists b. rewrite <- E. cbn [app setf].
    unfold shape_or_ref, alt. assert (Hq : qualifier n ((false, TRef l) :: rest) = Err).
    { apply qualifier_quiet; [apply calm_quiet; exact Logic.I|discriminate]. }
    destruct inl; unfold inline_shape_definition, shape_definition, qualifiers;
      rewrite (many0_err n _ _ ltac:(cbn in Hn; lia) Hq); reflexivity.
Qed.

Lemma kind_no_facet k r b : k <> KLiteral -> no_facet ((b, TWord (kind_word k)) :: r).
Proof. intros Hk c. destruct k; try congruence; destruct c; reflexivity. Qed.

Lemma atom_reads inl c a rest : level c = 0 -> shape_syntax inl c -> plain inl c -> clear_names (se_toks c) ->
  length (se_toks c) + 1 <= n -> List.map snd a = se_toks c -> starts (after_atom inl) rest ->
  exists b, shape_atom n rec_se rec_te inl (setf false (a ++ rest)) = Ok (se_tree c) (setf b rest).
Proof.
  intros Hl Hs Hp Hc Hn Ha Hf.
  assert (Hattr : starts (fun t => inl = true \/ t <> TP PSlashes /\ t <> TP PPercent) rest).
  { destruct inl; [destruct rest as [|[]]; cbn; auto|].
    eapply starts_imp; [|apply after_no_attr, Hf]. intros t H. right. exact H. }
  destruct c as [l|l|c|c s|c|s c|c|]; cbn in Hl; try discriminate; cbn [se_toks shape_syntax plain] in *;
    unfold shape_atom, alt.
  - (* a node constraint and perhaps a shape *)
    destruct Hs as [Hc1 Hs]. destruct Hp as [Hp1 Hp]. unfold non_lit_opt_shape_or_ref.
    apply lay_app in Ha. destruct Ha as (a1 & a2 & -> & Ha1 & Ha2). rewrite <- app_assoc.
    rewrite app_length in Hn. apply clear_app in Hc. destruct Hc as [_ Hc].
    destruct s as [s|].
    + assert (Hno : no_facet (a2 ++ rest)).
      { destruct (sub_first s) as (t & ts & E & H). rewrite E in Ha2. apply lay_cons in Ha2.
        destruct Ha2 as (b2 & a3 & -> & _). intros b. cbn [app setf].
        destruct (sub_start t H) as [Q|(w & -> & Hw)].
        - apply xs_facet_quiet; [apply calm_quiet, Q|]. destruct H as [[x ->]|[->|[->|H]]]; try discriminate.
          cbn in H. destruct H as [<-|[<-|[<-|[]]]]; discriminate.
        - destruct H as [[x G]|[G|[G|H]]]; try discriminate. cbn in H.
          destruct H as [<-|[<-|[<-|[]]]]; destruct b; reflexivity. }
      destruct (non_lit_reads c (a2 ++ rest) n a1 false Hc1 Hp1 ltac:(lia) Hno Ha1 (or_introl eq_refl)) as [b E].
      rewrite E. cbn [bind]. unfold opt. rewrite tws0_set.
      destruct (sub_reads inl s a2 rest Hs Hp Hc ltac:(lia) Ha2 Hattr) as [b2 E2].
      rewrite E2. exists b2. reflexivity.
    + apply lay_nil in Ha2. subst a2. cbn [app].
      destruct (non_lit_reads c rest n a1 false Hc1 Hp1 ltac:(lia) (after_no_facet inl rest Hf) Ha1 (or_introl eq_refl)) as [b E].
      rewrite E. cbn [bind]. unfold opt. rewrite tws0_set, (after_no_sub inl rest n rec_te false ltac:(lia) Hf).
      exists false. reflexivity.
  - destruct (lit_reads c rest n a Hs Hp Hc ltac:(lia) (after_no_facet inl rest Hf) Ha) as (E1 & b & E2).
    unfold non_lit_opt_shape_or_ref. rewrite E1. cbn [bind]. unfold map. rewrite E2. exists b. reflexivity.
  - (* a shape or a reference, and perhaps a node constraint *)
    destruct Hs as [Hs1 Hs2]. destruct Hp as [Hp1 Hp2].
    apply lay_app in Ha. destruct Ha as (a1 & a2 & -> & Ha1 & Ha2). rewrite <- app_assoc.
    rewrite app_length in Hn. apply clear_app in Hc. destruct Hc as [Hc1 Hc2].
    assert (E0 : non_lit_node_constraint n (setf false (a1 ++ a2 ++ rest)) = Err
                 /\ lit_node_constraint n (setf false (a1 ++ a2 ++ rest)) = Err).
    { destruct (sub_first s) as (t & ts & E & H). rewrite E in Ha1. apply lay_cons in Ha1.
      destruct Ha1 as (b2 & a3 & -> & _). cbn [app setf]. apply sub_no_node, H. }
    destruct E0 as [E01 E02]. unfold non_lit_opt_shape_or_ref. rewrite E01. cbn [bind]. unfold map. rewrite E02.
    cbn [bind]. unfold shape_opt_non_lit.
    destruct c as [c|].
    + cbn [when] in *. destruct Hp2 as [Hp2 Hp3].
      assert (Hk : exists k fs, c = CKind k fs /\ k <> KLiteral).
      { destruct c as [k fs|fs|d fs|v fs|fs]; cbn in *; try contradiction. exists k, fs. split; [reflexivity|].
        destruct k; try discriminate. contradiction. }
      destruct Hk as (k & fs & -> & Hk).
      destruct (sub_reads inl s a1 (a2 ++ rest) Hs1 Hp1 Hc1 ltac:(lia) Ha1) as [b E].
      { cbn [node_toks] in Ha2. apply lay_cons in Ha2. destruct Ha2 as (b3 & a3 & -> & _). right. split; discriminate. }
      rewrite E. cbn [bind]. unfold opt.
      destruct (non_lit_reads (CKind k fs) rest n a2 b Hs2 Hp2 ltac:(lia) (after_no_facet inl rest Hf) Ha2 (or_intror Hp3)) as [b2 E2].
      rewrite E2. exists b2. reflexivity.
    + apply lay_nil in Ha2. subst a2. cbn [app].
      destruct (sub_reads inl s a1 rest Hs1 Hp1 Hc1 ltac:(lia) Ha1 Hattr) as [b E].
      rewrite E. cbn [bind]. unfold opt. rewrite (after_no_non_lit inl rest n b Hf). exists b. reflexivity.
  - (* parentheses *)
    apply lay_cons in Ha. destruct Ha as (b1 & a1 & -> & Ha). apply lay_app in Ha. destruct Ha as (a2 & a3 & -> & Ha2 & Ha3).
    apply lay_cons in Ha3. destruct Ha3 as (b3 & a4 & -> & Ha4). apply lay_nil in Ha4. subst a4.
    cbn [app]. rewrite <- app_assoc. cbn [app setf]. cbn [length] in Hn. rewrite app_length in Hn. cbn [length] in Hn.
    apply clear_cons, clear_app in Hc. destruct Hc as [Hc _].
    assert (Q : quiet (TP PLPar)) by (apply calm_quiet; exact Logic.I).
    unfold non_lit_opt_shape_or_ref. rewrite non_lit_quiet by (exact Q || discriminate). cbn [bind]. unfold map.
    replace (lit_node_constraint n ((false, TP PLPar) :: a2 ++ (b3, TP PRPar) :: rest)) with (@Err nodec) by reflexivity.
    cbn [bind]. unfold shape_opt_non_lit.
    rewrite no_sub; [|lia|apply qualifier_quiet; [exact Q|discriminate]|discriminate|discriminate]. cbn [bind].
    unfold paren_shape_expr. cbn [char punct_eqb bind].
    destruct (HSE false c a2 ((b3, TP PRPar) :: rest) ltac:(lia) Hs Hp Hc Ha2) as [b E].
    { cbn. split; [|discriminate]. split; [|discriminate]. apply aa_punct. cbn. tauto. }
    rewrite tws0_setf, E. cbn [bind setf tws0 char punct_eqb].
    destruct (setf_self rest) as [b4 E4]. exists b4. rewrite <- E4. reflexivity.
  - apply lay_cons in Ha. destruct Ha as (b1 & a1 & -> & Ha). apply lay_nil in Ha. subst a1. cbn [app setf].
    assert (Q : quiet (TP PDot)) by (apply calm_quiet; exact Logic.I).
    unfold non_lit_opt_shape_or_ref. rewrite non_lit_quiet by (exact Q || discriminate). cbn [bind]. unfold map.
    replace (lit_node_constraint n ((false, TP PDot) :: rest)) with (@Err nodec) by reflexivity.
    cbn [bind]. unfold shape_opt_non_lit.
    rewrite no_sub; [|cbn in Hn; lia|apply qualifier_quiet; [exact Q|discriminate]|discriminate|discriminate]. cbn [bind].
    destruct (setf_self rest) as [b4 E4]. exists b4. rewrite <- E4. reflexivity.
Qed.

Lemma not_reads inl c a rest : level c <= 1 -> shape_syntax inl c -> plain inl c -> clear_names (se_toks c) ->
  length (se_toks c) + 1 <= n -> List.map snd a = se_toks c -> starts (after_atom inl) rest ->
  exists b, shape_not n rec_se rec_te inl (setf false (a ++ rest)) = Ok (se_tree c) (setf b rest).
Proof.
  intros Hl Hs Hp Hc Hn Ha Hf. unfold shape_not.
  destruct (Nat.eq_dec (level c) 0) as [Hl0|Hl0].
  - destruct (atom_first inl c Hl0 Hs Hc) as (t & ts & Et & Ht).
    assert (E0 : symbol "NOT" (setf false (a ++ rest)) = Err).
    { rewrite Et in Ha. apply lay_cons in Ha. destruct Ha as (b1 & a1 & -> & _). cbn [app setf]. apply atom_not, Ht. }
    unfold opt. rewrite E0. cbn [bind]. unfold map.
    destruct (atom_reads inl c a rest Hl0 Hs Hp Hc Hn Ha Hf) as [b E]. rewrite E. exists b. reflexivity.
  - destruct c as [l|l|c|c s|c|s c|c|]; cbn in Hl, Hl0; try lia.
    cbn [se_toks shape_syntax plain] in *. destruct Hs as [Hl1 Hs].
    apply lay_cons in Ha. destruct Ha as (b1 & a1 & -> & Ha). cbn [app setf].
    replace (opt (symbol "NOT") ((false, TWord "NOT") :: a1 ++ rest)) with (Ok (Some tt) (tws0 (a1 ++ rest))) by reflexivity.
    cbn [bind]. unfold map. rewrite tws0_setf.
    cbn [length] in Hn. apply clear_cons in Hc.
    destruct (atom_reads inl c a1 rest Hl1 Hs Hp Hc ltac:(lia) Ha Hf) as [b E]. rewrite E. exists b. reflexivity.
Qed.

(** The operands after the first. *)
Lemma sep_reads (p : parser se) k (Q : tok -> Prop) inl rest : In k ["AND"; "OR"] -> Q (TWord k) -> starts Q rest ->
  starts (fun t => after_atom inl t /\ t <> TWord k) rest ->
  forall xs, (forall c a r, In c xs -> List.map snd a = se_toks c -> starts Q r ->
     exists b, p (setf false (a ++ r)) = Ok (se_tree c) (setf b r)) ->
  forall m vs a b, length xs < m -> List.map snd a = flat_map (fun c => TWord k :: se_toks c) xs ->
  sep_loop m p k vs (setf b (a ++ rest)) = Ok (vs ++ List.map se_tree xs) (setf false rest).
Proof.
  intros Hk HQ HQr Hend. induction xs as [|c xs IH]; intros Hp m vs a b Hm Ha; (destruct m as [|m]; [cbn in Hm; lia|]).
  - apply lay_nil in Ha. subst a. cbn [sep_loop app]. rewrite tws0_set.
    rewrite (symbol_none k inl rest false Hk Hend). cbn [List.map]. rewrite app_nil_r. reflexivity.
  - cbn [flat_map] in Ha. apply lay_cons in Ha. destruct Ha as (b1 & a1 & -> & Ha).
    apply lay_app in Ha. destruct Ha as (a2 & a3 & -> & Ha2 & Ha3). cbn [app setf sep_loop]. rewrite <- app_assoc.
    cbn [tws0].
    assert (Es : symbol k ((false, TWord k) :: a2 ++ a3 ++ rest) = Ok tt (tws0 (a2 ++ a3 ++ rest)))
      by (cbn in Hk; destruct Hk as [<-|[<-|[]]]; reflexivity).
    rewrite Es. rewrite (tws0_setf (a2 ++ a3 ++ rest)), tws0_set.
    assert (HQ3 : starts Q (a3 ++ rest)).
    { destruct xs as [|c' xs]; cbn [flat_map] in Ha3.
      - apply lay_nil in Ha3. subst a3. exact HQr.
      - eapply starts_app; [exact Ha3|exact HQ]. }
    destruct (Hp c a2 (a3 ++ rest) (or_introl eq_refl) Ha2 HQ3) as [b2 E2]. rewrite E2.
    rewrite (IH (fun c a r H => Hp c a r (or_intror H)) m (vs ++ [se_tree c]) a3 b2 ltac:(cbn in Hm; lia) Ha3).
    rewrite <- app_assoc. reflexivity.
Qed.

Lemma make_and_id e : make_and [e] = e.
Proof. reflexivity. Qed.
Lemma and_reads inl c a rest : level c <= 2 -> shape_syntax inl c -> plain inl c -> clear_names (se_toks c) ->
  length (se_toks c) + 1 <= n -> List.map snd a = se_toks c -> starts (after_and inl) rest ->
  exists b, shape_and n rec_se rec_te inl (setf false (a ++ rest)) = Ok (se_tree c) (setf b rest).
Proof.
  intros Hl Hs Hp Hc Hn Ha Hf. unfold shape_and, many1_sep. rewrite tws0_set.
  assert (Hfa : starts (after_atom inl) rest) by (eapply starts_imp; [|exact Hf]; intros t [H _]; exact H).
  assert (Hand : after_atom inl (TWord "AND")) by (apply aa_word; cbn; tauto).
  destruct (le_lt_dec (level c) 1) as [Hl1|Hl1].
  - destruct (not_reads inl c a rest Hl1 Hs Hp Hc Hn Ha Hfa) as [b E]. rewrite E. cbn [bind].
    pose proof (sep_reads (shape_not n rec_se rec_te inl) "AND" (after_atom inl) inl rest ltac:(cbn; tauto) Hand Hfa Hf []
               ltac:(intros c' a' r []) n [se_tree c] [] b ltac:(cbn in *; lia) eq_refl) as E3. cbn [app List.map] in E3. rewrite E3.
    exists false. reflexivity.
  - destruct c as [l|l|c|c s|c|s c|c|]; cbn in Hl, Hl1; try lia.
    cbn [se_toks shape_syntax plain] in *. destruct Hs as [Hlen Hs]. apply all_or in Hs. apply all_plain in Hp.
    destruct l as [|c1 [|c2 l]]; [cbn in Hlen; lia|cbn in Hlen; lia|].
    rewrite Forall_forall in Hs, Hp.
    set (tl := c2 :: l) in *. cbn [List.map] in Ha, Hn, Hc. rewrite between_cons, flat_map_map in Ha, Hn, Hc.
    apply lay_app in Ha. destruct Ha as (a1 & a2 & -> & Ha1 & Ha2). rewrite <- app_assoc.
    rewrite app_length in Hn. apply clear_app in Hc. destruct Hc as [Hc1 Hc2].
    assert (Hn2 : starts (after_atom inl) (a2 ++ rest)).
    { subst tl. cbn [flat_map] in Ha2. eapply starts_app; [exact Ha2|exact Hand]. }
    destruct (not_reads inl c1 a1 (a2 ++ rest)) as [b E]; try assumption; try lia;
      try (apply Hs; left; reflexivity); try (apply Hp; left; reflexivity).
    rewrite E. cbn [bind].
    rewrite (sep_reads (shape_not n rec_se rec_te inl) "AND" (after_atom inl) inl rest ltac:(cbn; tauto) Hand Hfa Hf tl).
    + exists false. reflexivity.
    + intros c' a' r Hin Ha' Hr.
      pose proof (len_flat (fun c => TWord "AND" :: se_toks c) tl c' Hin) as Hl'. cbn [length] in Hl'.
      apply not_reads; try assumption.
      * apply Hs. right. exact Hin.
      * apply Hs. right. exact Hin.
      * apply Hp. right. exact Hin.
      * eapply clear_cons, (clear_flat (fun c => TWord "AND" :: se_toks c)); eassumption.
      * lia.
    + pose proof (len_items (TWord "AND") se_toks tl). lia.
    + exact Ha2.
Qed.

Lemma or_reads inl c a rest : shape_syntax inl c -> plain inl c -> clear_names (se_toks c) ->
  length (se_toks c) + 1 <= n -> List.map snd a = se_toks c -> starts (after_or inl) rest ->
  exists b, shape_or n rec_se rec_te inl (setf false (a ++ rest)) = Ok (se_tree c) (setf b rest).
Proof.
  intros Hs Hp Hc Hn Ha Hf. unfold shape_or, many1_sep. rewrite tws0_set.
  assert (Hfa : starts (after_and inl) rest) by (eapply starts_imp; [|exact Hf]; intros t [H _]; exact H).
  assert (Hfo : starts (fun t => after_atom inl t /\ t <> TWord "OR") rest)
    by (eapply starts_imp; [|exact Hf]; intros t [[H1 _] H2]; split; assumption).
  assert (Hand : after_and inl (TWord "OR")) by (split; [apply aa_word; cbn; tauto|discriminate]).
  destruct (le_lt_dec (level c) 2) as [Hl1|Hl1].
  - destruct (and_reads inl c a rest Hl1 Hs Hp Hc Hn Ha Hfa) as [b E]. rewrite E. cbn [bind].
    pose proof (sep_reads (shape_and n rec_se rec_te inl) "OR" (after_and inl) inl rest ltac:(cbn; tauto) Hand Hfa Hfo []
               ltac:(intros c' a' r []) n [se_tree c] [] b ltac:(cbn in *; lia) eq_refl) as E3. cbn [app List.map] in E3. rewrite E3.
    exists false. reflexivity.
  - destruct c as [l|l|c|c s|c|s c|c|]; cbn in Hl1; try lia.
    cbn [se_toks shape_syntax plain] in *. destruct Hs as [Hlen Hs]. apply all_or in Hs. apply all_plain in Hp.
    destruct l as [|c1 [|c2 l]]; [cbn in Hlen; lia|cbn in Hlen; lia|].
    rewrite Forall_forall in Hs, Hp.
    set (tl := c2 :: l) in *. cbn [List.map] in Ha, Hn, Hc. rewrite between_cons, flat_map_map in Ha, Hn, Hc.
    apply lay_app in Ha. destruct Ha as (a1 & a2 & -> & Ha1 & Ha2). rewrite <- app_assoc.
    rewrite app_length in Hn. apply clear_app in Hc. destruct Hc as [Hc1 Hc2].
    assert (Hn2 : starts (after_and inl) (a2 ++ rest)).
    { subst tl. cbn [flat_map] in Ha2. eapply starts_app; [exact Ha2|exact Hand]. }
    destruct (and_reads inl c1 a1 (a2 ++ rest)) as [b E]; try assumption; try lia;
      try (apply Hs; left; reflexivity); try (apply Hp; left; reflexivity).
    rewrite E. cbn [bind].
    rewrite (sep_reads (shape_and n rec_se rec_te inl) "OR" (after_and inl) inl rest ltac:(cbn; tauto) Hand Hfa Hfo tl).
    + exists false. reflexivity.
    + intros c' a' r Hin Ha' Hr.
      pose proof (len_flat (fun c => TWord "OR" :: se_toks c) tl c' Hin) as Hl'. cbn [length] in Hl'.
      apply and_reads; try assumption.
      * apply Hs. right. exact Hin.
      * apply Hs. right. exact Hin.
      * apply Hp. right. exact Hin.
      * eapply clear_cons, (clear_flat (fun c => TWord "OR" :: se_toks c)); eassumption.
      * lia.
    + pose proof (len_items (TWord "OR") se_toks tl). lia.
    + exact Ha2.
Qed.

(** ** Triple expressions *)

Lemma annots_len an : length an <= length (flat_map annot_toks an).
Proof. induction an as [|x an IH]; cbn; lia. Qed.
Lemma acts_len ac : length ac <= length (flat_map act_toks ac).
Proof. induction ac as [|x ac IH]; cbn; lia. Qed.

Definition tail_toks (c : option ccard) (an : list annot) (ac : list act) : list tok :=
  card_toks c ++ flat_map annot_toks an ++ flat_map act_toks ac.

Lemma tail_reads c an ac rest a : card_fits c -> Forall annot_ok an -> Forall act_ok ac ->
  length (tail_toks c an ac) + 1 <= n -> List.map snd a = tail_toks c an ac -> starts after_unary rest ->
  exists r1 r2,
    opt cardinality (setf false (a ++ rest)) =
      Ok (match fst (card_tree c), snd (card_tree c) with Some x, Some y => Some (x, y) | _, _ => None end) r1
    /\ annotations n (tws0 r1) = Ok an r2 /\ semantic_actions n (tws0 r2) = Ok (some ac) (setf false rest).
Proof.
  intros Hc Han Hac Hn Ha Hf. unfold tail_toks in *. rewrite !app_length in Hn.
  pose proof (annots_len an). pose proof (acts_len ac).
  apply lay_app in Ha. destruct Ha as (a1 & a2 & -> & Ha1 & Ha2). rewrite <- app_assoc.
  assert (Hs : starts (fun t => ~ In t [TP PStar; TP PPlus; TP PQuest] /\ (forall mn b, t <> TRange mn b)) (a2 ++ rest)).
  { destruct an as [|x an]; [destruct ac as [|x ac]|]; cbn in Ha2.
    - apply lay_nil in Ha2. subst a2. eapply starts_imp; [|exact Hf]. intros t Ht.
      unfold after_unary in Ht. cbn in Ht |- *. intuition (subst; discriminate).
    - eapply starts_app; [exact Ha2|]. cbn. intuition discriminate.
    - eapply starts_app; [exact Ha2|]. cbn. intuition discriminate. }
  pose proof (card_reads c (a2 ++ rest) a1 Hc Hs Ha1) as E.
  destruct (attributes_read an ac rest n a2 false Han Hac ltac:(lia) ltac:(lia)) as (r2 & E1 & E2).
  - eapply starts_imp; [|exact Hf]. intros t Ht. unfold after_unary in Ht. cbn in Ht. intuition (subst; discriminate).
  - exact Ha2.
  - eexists _, r2. split; [exact E|]. split; [|exact E2].
    destruct c; [rewrite tws0_setf|rewrite tws0_set]; exact E1.
Qed.

Definition sense_val (s : csense) : option (option bool * option bool) :=
  match s with SPlain => None | _ => Some (negated_tree s, inverse_tree s) end.
Lemma sense_reads s p b0 b1 r a : List.map snd a = sense_toks s -> exists b,
  opt sense_flags (setf b0 (a ++ (b1, iri_tok p) :: r)) = Ok (sense_val s) ((b, iri_tok p) :: r).
Proof.
  intros Ha. destruct s; cbn in Ha;
    repeat match goal with
    | H : List.map snd _ = _ :: _ |- _ =>
        apply lay_cons in H; let b := fresh "b" in let a := fresh "a" in destruct H as (b & a & -> & H)
    end; apply lay_nil in Ha; subst; destruct p; eexists; reflexivity.
Qed.

(** The value of a constraint and what follows it. *)
Lemma after_value c an ac rest a : List.map snd a = tail_toks c an ac -> starts after_unary rest ->
  starts (after_or true) (a ++ rest).
Proof.
  intros Ha Hf. unfold tail_toks in Ha.
  assert (G : forall p, In p [PRBrace; PRPar; PSemi; PBar; PStar; PPlus; PQuest] -> after_or true (TP p)).
  { intros p Hp. split; [|discriminate]. split; [|discriminate]. apply aa_punct, Hp. }
  assert (G2 : forall p, In p [PSlashes; PPercent] -> after_or true (TP p)).
  { intros p Hp. split; [|discriminate]. split; [|discriminate]. apply aa_attr; [reflexivity|exact Hp]. }
  destruct c as [[| | |mn b]|]; cbn in Ha.
  1-3: eapply starts_app; [exact Ha|]; apply G; cbn; tauto.
  - eapply starts_app; [exact Ha|]. split; [|discriminate]. split; [|discriminate]. apply aa_range.
  - destruct an as [|x an]; [destruct ac as [|x ac]|]; cbn in Ha.
    + apply lay_nil in Ha. subst a. eapply starts_imp; [|exact Hf]. intros t Ht. unfold after_unary in Ht.
      cbn in Ht. repeat (destruct Ht as [<-|Ht]); try contradiction; apply G; cbn; tauto.
    + eapply starts_app; [exact Ha|]. apply G2. cbn. tauto.
    + eapply starts_app; [exact Ha|]. apply G2. cbn. tauto.
Qed.

Lemma constraint_reads s p v c an ac a rest : shape_syntax true v -> plain true v -> card_fits c ->
  Forall annot_ok an -> Forall act_ok ac ->
  clear_names (se_toks v) ->
  length (sense_toks s ++ iri_tok p :: se_toks v ++ tail_toks c an ac) + 1 <= n ->
  List.map snd a = sense_toks s ++ iri_tok p :: se_toks v ++ tail_toks c an ac ->
  starts after_unary rest ->
  bracketed_triple_expr n rec_te (setf false (a ++ rest)) = Err
  /\ triple_constraint n rec_se (setf false (a ++ rest)) = Ok (te_tree (CTc None s p v c an ac)) (setf false rest).
Proof.
  intros Hs Hp Hc Han Hac Hcl Hn Ha Hf.
  rewrite app_length in Hn. cbn [length] in Hn. rewrite app_length in Hn.
  apply lay_app in Ha. destruct Ha as (a1 & a2 & -> & Ha1 & Ha2).
  apply lay_cons in Ha2. destruct Ha2 as (b1 & a3 & -> & Ha3).
  apply lay_app in Ha3. destruct Ha3 as (a4 & a5 & -> & Ha4 & Ha5).
  rewrite <- app_assoc. cbn [app]. rewrite <- app_assoc. split.
  - unfold bracketed_triple_expr, token_tws. destruct s; cbn in Ha1;
      repeat match goal with
      | H : List.map snd _ = _ :: _ |- _ =>
          apply lay_cons in H; let b := fresh "b" in let a := fresh "a" in destruct H as (b & a & -> & H)
      end; apply lay_nil in Ha1; subst; destruct p; reflexivity.
  - unfold triple_constraint. destruct (sense_reads s p false b1 (a4 ++ a5 ++ rest) a1 Ha1) as [b E].
    rewrite E. cbn [bind tws0]. rewrite predicate_reads. cbn [bind].
    destruct (HSE true v a4 (a5 ++ rest)) as [b2 E2]; [lia|assumption..| |].
    { eapply after_value; eassumption. }
    rewrite tws0_setf, E2. cbn [bind].
    destruct (tail_reads c an ac rest a5 Hc Han Hac ltac:(lia) Ha5 Hf) as (r1 & r2 & E3 & E4 & E5).
    rewrite tws0_set, E3. cbn [bind]. rewrite E4. cbn [bind]. rewrite E5. cbn [bind].
    cbn [te_tree]. f_equal. generalize (se_tree v). intros e. f_equal.
    + destruct s; reflexivity.
    + destruct s; reflexivity.
    + destruct e as [l|l|e|k|cl ex t ac' an' es| |l]; try reflexivity.
      destruct cl, ex, t, ac', an', es; reflexivity.
    + destruct c as [[| | |mn []]|]; reflexivity.
    + destruct c as [[| | |mn []]|]; reflexivity.
Qed.

Lemma bracket_reads t c an ac a rest : triple_syntax t -> plain_te t -> bare (te_tree t) = true -> card_fits c ->
  Forall annot_ok an -> Forall act_ok ac -> clear_names (te_toks t) ->
  length (TP PLPar :: te_toks t ++ TP PRPar :: tail_toks c an ac) + 1 <= n ->
  List.map snd a = TP PLPar :: te_toks t ++ TP PRPar :: tail_toks c an ac -> starts after_unary rest ->
  forall id, exists u, bracketed_triple_expr n rec_te (setf false (a ++ rest)) = Ok u (setf false rest)
  /\ with_id id u = Some (te_tree (CBr id t c an ac)).
Proof.
  intros Hs Hp Hb Hc Han Hac Hcl Hn Ha Hf id.
  cbn [length] in Hn. rewrite app_length in Hn. cbn [length] in Hn.
  apply lay_cons in Ha. destruct Ha as (b1 & a1 & -> & Ha).
  apply lay_app in Ha. destruct Ha as (a2 & a3 & -> & Ha2 & Ha3).
  apply lay_cons in Ha3. destruct Ha3 as (b3 & a4 & -> & Ha4).
  cbn [app]. rewrite <- app_assoc. cbn [app setf].
  unfold bracketed_triple_expr.
  replace (token_tws PLPar ((false, TP PLPar) :: a2 ++ (b3, TP PRPar) :: a4 ++ rest))
    with (Ok tt (tws0 (a2 ++ (b3, TP PRPar) :: a4 ++ rest))) by reflexivity.
  cbn [bind].
  destruct (HTE t a2 ((b3, TP PRPar) :: a4 ++ rest) ltac:(lia) Hs Hp Hcl Ha2) as [b E]; [cbn; tauto|].
  unfold cut. rewrite tws0_setf, E. cbn [bind setf].
  replace (token_tws PRPar ((b, TP PRPar) :: a4 ++ rest)) with (Ok tt (tws0 (a4 ++ rest))) by reflexivity.
  cbn [bind].
  destruct (tail_reads c an ac rest a4 Hc Han Hac ltac:(lia) Ha4 Hf) as (r1 & r2 & E3 & E4 & E5).
  rewrite tws0_setf, E3. cbn [bind]. rewrite E4. cbn [bind]. rewrite E5. cbn [bind].
  pose proof (with_all_bare id c an ac (te_tree t) Hb) as W.
  destruct (with_all _ an (some ac) (te_tree t)) as [u|]; [|discriminate].
  exists u. split; [reflexivity|exact W].
Qed.

Lemma unary_none t r b : starts (fun t => after_group t \/ t = TP PSemi) [(b, t)] ->
  unary_triple_expr n rec_se rec_te ((false, t) :: r) = Err.
Proof.
  cbn. unfold after_group. cbn. intros H.
  repeat match goal with H : _ \/ _ |- _ => destruct H as [H|H] end; subst; try contradiction; reflexivity.
Qed.

Lemma unary_reads c a rest : tlevel c = 0 -> triple_syntax c -> plain_te c -> clear_names (te_toks c) ->
  length (te_toks c) + 1 <= n -> List.map snd a = te_toks c -> starts after_unary rest ->
  exists b, unary_triple_expr n rec_se rec_te (setf false (a ++ rest)) = Ok (te_tree c) (setf b rest).
Proof.
  intros Hl Hs Hp Hcl Hn Ha Hf.
  destruct c as [l|l semi|l|id t c an ac|id s p v c an ac]; cbn in Hl; try discriminate;
    cbn [te_toks triple_syntax plain_te] in *; unfold unary_triple_expr, alt.
  - apply lay_cons in Ha. destruct Ha as (b1 & a1 & -> & Ha). apply lay_cons in Ha. destruct Ha as (b2 & a2 & -> & Ha).
    apply lay_nil in Ha. subst a2. cbn [app setf]. unfold include_.
    replace (token_tws PAmp ((false, TP PAmp) :: (b2, label_tok l) :: rest)) with (Ok tt ((false, label_tok l) :: rest))
      by reflexivity.
    cbn [bind]. unfold map, cut. rewrite (label_reads l rest Hs). cbn [bind].
    destruct (setf_self rest) as [b E]. exists b. rewrite <- E. reflexivity.
  - destruct Hs as (Hid & Hs & Han & Hac). destruct Hp as (Hp & Hb & Hc).
    fold (tail_toks c an ac) in Ha, Hn, Hcl.
    apply lay_app in Ha. destruct Ha as (a1 & a2 & -> & Ha1 & Ha2). rewrite <- app_assoc.
    rewrite app_length in Hn. apply clear_app in Hcl. destruct Hcl as [_ Hcl]. apply clear_cons, clear_app in Hcl.
    destruct Hcl as [Hcl _].
    destruct (bracket_reads t c an ac a2 rest Hs Hp Hb Hc Han Hac Hcl ltac:(lia) Ha2 Hf id) as (u & E & W).
    assert (E1 : include_ (setf false (a1 ++ a2 ++ rest)) = Err
                 /\ exists r, triple_expr_label_opt (setf false (a1 ++ a2 ++ rest)) = Ok id r
                            /\ tws0 r = setf false (a2 ++ rest)).
    { destruct id as [l|]; cbn in Ha1.
      - apply lay_cons in Ha1. destruct Ha1 as (b1 & a3 & -> & Ha1). apply lay_cons in Ha1.
        destruct Ha1 as (b4 & a5 & -> & Ha1). apply lay_nil in Ha1. subst a5. cbn [app setf].
        split; [reflexivity|]. exists (a2 ++ rest). split; [|apply tws0_setf].
        unfold triple_expr_label_opt, opt. cbn [char punct_eqb bind tws0]. rewrite (label_reads l _ Hid). reflexivity.
      - apply lay_nil in Ha1. subst a1. apply lay_cons in Ha2. destruct Ha2 as (b4 & a5 & -> & Ha2). cbn [app setf].
        split; [reflexivity|]. eexists. split; reflexivity. }
    destruct E1 as (E1 & r & E2 & E3). rewrite E1. rewrite E2. cbn [bind]. rewrite E3, E. cbn [bind]. rewrite W.
    exists false. reflexivity.
  - destruct Hs as (Hid & Hs & Han & Hac). destruct Hp as (Hp & Hc).
    fold (tail_toks c an ac) in Ha, Hn, Hcl.
    apply lay_app in Ha. destruct Ha as (a1 & a2 & -> & Ha1 & Ha2). rewrite <- app_assoc.
    rewrite app_length in Hn. apply clear_app in Hcl. destruct Hcl as [_ Hcl]. apply clear_app in Hcl.
    destruct Hcl as [_ Hcl]. apply clear_cons, clear_app in Hcl. destruct Hcl as [Hcl _].
    destruct (constraint_reads s p v c an ac a2 rest Hs Hp Hc Han Hac Hcl ltac:(lia) Ha2 Hf) as (EB & E).
    assert (E1 : include_ (setf false (a1 ++ a2 ++ rest)) = Err
                 /\ exists r, triple_expr_label_opt (setf false (a1 ++ a2 ++ rest)) = Ok id r
                            /\ tws0 r = setf false (a2 ++ rest)).
    { destruct id as [l|]; cbn in Ha1.
      - apply lay_cons in Ha1. destruct Ha1 as (b1 & a3 & -> & Ha1). apply lay_cons in Ha1.
        destruct Ha1 as (b4 & a5 & -> & Ha1). apply lay_nil in Ha1. subst a5. cbn [app setf].
        split; [reflexivity|]. exists (a2 ++ rest). split; [|apply tws0_setf].
        unfold triple_expr_label_opt, opt. cbn [char punct_eqb bind tws0]. rewrite (label_reads l _ Hid). reflexivity.
      - apply lay_nil in Ha1. subst a1.
        destruct s; cbn in Ha2; apply lay_cons in Ha2; destruct Ha2 as (b4 & a5 & -> & Ha2); cbn [app setf];
          try destruct p; (split; [reflexivity|]; eexists; split; reflexivity). }
    destruct E1 as (E1 & r & E2 & E3). rewrite E1. rewrite E2. cbn [bind]. rewrite E3, EB, E.
    exists false. reflexivity.
Qed.

(** A separated list of expressions. *)
Definition parts (k : punct) (p : parser te) : parser te := fun i => bind (token_tws k i) (fun _ r => p r).
Lemma parts_read (k : punct) (p : parser te) (Q : tok -> Prop) rest : Q (TP k) -> starts Q rest ->
  (forall b, parts k p (setf b rest) = Err) ->
  forall xs, (forall c a r, In c xs -> List.map snd a = te_toks c -> starts Q r ->
     exists b, p (setf false (a ++ r)) = Ok (te_tree c) (setf b r)) ->
  xs <> [] -> forall a b, length xs <= n -> List.map snd a = flat_map (fun c => TP k :: te_toks c) xs ->
  exists b', many1 n (parts k p) (setf b (a ++ rest)) = Ok (List.map te_tree xs) (setf b' rest).
Proof.
  intros HQ HQr Hend xs Hp Hne a b Hn Ha.
  destruct (many1_reads (parts k p) te_tree (fun c => TP k :: te_toks c) anyflag (starts Q) xs rest)
    with (n := n) (a := a) (b := b) as (b' & _ & E).
  - intros x a' r b' Hin Ha' _ Hr. apply lay_cons in Ha'. destruct Ha' as (b1 & a1 & -> & Ha').
    destruct (Hp x a1 r Hin Ha' Hr) as [b2 E]. exists b2. split; [exact Logic.I|].
    unfold parts. cbn [app setf].
    replace (token_tws k ((b', TP k) :: a1 ++ r)) with (Ok tt (tws0 (a1 ++ r))) by (destruct k; reflexivity).
    cbn [bind]. rewrite tws0_setf. exact E.
  - intros x a' r Hin Ha' _. eapply starts_app; [exact Ha'|exact HQ].
  - exact HQr.
  - intros b' _. apply Hend.
  - exact Hne.
  - exact Hn.
  - exact Ha.
  - exact Logic.I.
  - exists b'. exact E.
Qed.
Lemma parts_end (k : punct) p rest b : starts (fun t => t <> TP k) rest -> parts k p (setf b rest) = Err.
Proof.
  intros H. unfold parts, token_tws. destruct rest as [|[d t] r]; [reflexivity|]. cbn [setf tws0]. cbn in H.
  unfold char. destruct t as [w|q l|i|x|z|x|x|x|x|x|x|mn x|q]; try reflexivity.
  destruct (punct_eqb k q) eqn:E; [|reflexivity]. exfalso. apply H. destruct k, q; try discriminate; reflexivity.
Qed.
Lemma semi_end rest b d : starts after_group rest ->
  parts PSemi (unary_triple_expr n rec_se rec_te) ((b, TP PSemi) :: setf d rest) = Err.
Proof.
  intros H. unfold parts.
  replace (token_tws PSemi ((b, TP PSemi) :: setf d rest)) with (Ok tt (tws0 (setf d rest))) by reflexivity.
  cbn [bind]. rewrite tws0_set. destruct rest as [|[e t] r]; [reflexivity|]. cbn [setf].
  apply (unary_none t r false). left. exact H.
Qed.

Lemma multi_group_eq i : multi_element_group n rec_se rec_te i =
  bind (unary_triple_expr n rec_se rec_te i) (fun t r =>
  bind (many1 n (parts PSemi (unary_triple_expr n rec_se rec_te)) (tws0 r)) (fun ts r =>
  bind (opt_semi (tws0 r)) (fun _ r => Ok (EEach None (t :: ts) None None None None) r))).
Proof. reflexivity. Qed.
Lemma multi_one_eq i : multi_element_one_of n rec_se rec_te i =
  bind (group_triple_expr n rec_se rec_te i) (fun t r =>
  bind (many1 n (parts PBar (group_triple_expr n rec_se rec_te)) (tws0 r)) (fun ts r =>
    Ok (EOne None (t :: ts) None None None None) r)).
Proof. reflexivity. Qed.

Definition semi_toks (semi : bool) : list tok := if semi then [TP PSemi] else [].
Lemma semi_reads semi a rest b : List.map snd a = semi_toks semi -> starts after_group rest ->
  exists b', opt_semi (tws0 (setf b (a ++ rest))) = Ok tt (setf b' rest).
Proof.
  intros Ha Hf. rewrite tws0_set. destruct semi; cbn in Ha.
  - apply lay_cons in Ha. destruct Ha as (b1 & a1 & -> & Ha). apply lay_nil in Ha. subst a1.
    destruct (setf_self rest) as [b' E]. exists b'. rewrite <- E. reflexivity.
  - apply lay_nil in Ha. subst a. exists false. destruct rest as [|[d t] r]; [reflexivity|]. cbn in Hf.
    unfold after_group in Hf. cbn in Hf.
    repeat (destruct Hf as [<-|Hf]); try contradiction; reflexivity.
Qed.
Lemma semi_after semi a rest : List.map snd a = semi_toks semi -> starts after_group rest ->
  starts after_unary (a ++ rest)
  /\ forall b, parts PSemi (unary_triple_expr n rec_se rec_te) (setf b (a ++ rest)) = Err.
Proof.
  intros Ha Hf. destruct semi; cbn in Ha.
  - apply lay_cons in Ha. destruct Ha as (b1 & a1 & -> & Ha). apply lay_nil in Ha. subst a1.
    split; [cbn; unfold after_unary; cbn; tauto|]. intros b. destruct (setf_self rest) as [d E]. cbn [app setf].
    rewrite E. apply semi_end, Hf.
  - apply lay_nil in Ha. subst a. split.
    + eapply starts_imp; [|exact Hf]. unfold after_group, after_unary. cbn. tauto.
    + intros b. apply parts_end. eapply starts_imp; [|exact Hf]. unfold after_group. cbn. intuition (subst; discriminate).
Qed.

(** One element, and perhaps a semicolon. *)
Lemma single_reads c a a' semi rest : tlevel c = 0 -> triple_syntax c -> plain_te c -> clear_names (te_toks c) ->
  length (te_toks c) + 1 <= n -> List.map snd a = te_toks c -> List.map snd a' = semi_toks semi ->
  starts after_group rest ->
  exists b, group_triple_expr n rec_se rec_te (setf false (a ++ a' ++ rest)) = Ok (te_tree c) (setf b rest).
Proof.
  intros Hl Hs Hp Hcl Hn Ha Ha' Hf. unfold group_triple_expr, alt. rewrite multi_group_eq.
  destruct (semi_after semi a' rest Ha' Hf) as [Hf1 Hf2].
  destruct (unary_reads c a (a' ++ rest) Hl Hs Hp Hcl Hn Ha Hf1) as [b E]. rewrite E. cbn [bind].
  unfold many1 at 1. rewrite tws0_set, Hf2. cbn [bind]. unfold single_element_group. rewrite E. cbn [bind].
  destruct (semi_reads semi a' rest b Ha' Hf) as [b' E']. rewrite E'. exists b'. reflexivity.
Qed.

Lemma group_reads c a rest : tlevel c <= 1 -> triple_syntax c -> plain_te c -> clear_names (te_toks c) ->
  length (te_toks c) + 1 <= n -> List.map snd a = te_toks c -> starts after_group rest ->
  exists b, group_triple_expr n rec_se rec_te (setf false (a ++ rest)) = Ok (te_tree c) (setf b rest).
Proof.
  intros Hl Hs Hp Hcl Hn Ha Hf.
  destruct (Nat.eq_dec (tlevel c) 0) as [Hl0|Hl0].
  - apply (single_reads c a [] false rest); auto.
  - destruct c as [l|l semi|l|id t c an ac|id s p v c an ac]; cbn in Hl, Hl0; try lia.
    cbn [te_toks triple_syntax plain_te] in *. destruct Hs as [Hlen Hs]. apply all_each in Hs. apply all_plain_te in Hp.
    rewrite Forall_forall in Hs, Hp. fold (semi_toks semi) in *.
    apply lay_app in Ha. destruct Ha as (a1 & a2 & -> & Ha1 & Ha2). rewrite <- app_assoc.
    rewrite app_length in Hn. apply clear_app in Hcl. destruct Hcl as [Hcl _].
    destruct l as [|c1 [|c2 l]]; [cbn in Hlen; lia| |].
    + cbn in Ha1, Hn, Hcl. apply (single_reads c1 a1 a2 semi rest); auto; try (apply Hs; left; reflexivity);
        try (apply Hp; left; reflexivity). lia.
    + set (tl := c2 :: l) in *. cbn [List.map] in Ha1, Hn, Hcl. rewrite between_cons, flat_map_map in Ha1, Hn, Hcl.
      rewrite app_length in Hn. apply clear_app in Hcl. destruct Hcl as [Hc1 Hc2].
      apply lay_app in Ha1. destruct Ha1 as (a3 & a4 & -> & Ha3 & Ha4). rewrite <- app_assoc.
      destruct (semi_after semi a2 rest Ha2 Hf) as [Hf1 Hf2].
      unfold group_triple_expr, alt. rewrite multi_group_eq.
      assert (Hsu : after_unary (TP PSemi)) by (unfold after_unary; cbn; tauto).
      destruct (unary_reads c1 a3 (a4 ++ a2 ++ rest)) as [b E]; try assumption; try lia;
        try (apply Hs; left; reflexivity); try (apply Hp; left; reflexivity).
      { subst tl. cbn [flat_map] in Ha4. eapply starts_app; [exact Ha4|exact Hsu]. }
      rewrite E. cbn [bind]. rewrite tws0_set.
      destruct (parts_read PSemi (unary_triple_expr n rec_se rec_te) after_unary (a2 ++ rest) Hsu Hf1 Hf2 tl) with
        (a := a4) (b := false) as [b2 E2].
      * intros c' a' r Hin Ha' Hr.
        pose proof (len_flat (fun c => TP PSemi :: te_toks c) tl c' Hin) as Hl'. cbn [length] in Hl'.
        apply unary_reads; try assumption.
        -- apply Hs. right. exact Hin.
        -- apply Hs. right. exact Hin.
        -- apply Hp. right. exact Hin.
        -- eapply clear_cons, (clear_flat (fun c => TP PSemi :: te_toks c)); eassumption.
        -- lia.
      * discriminate.
      * pose proof (len_items (TP PSemi) te_toks tl). lia.
      * exact Ha4.
      * rewrite E2. cbn [bind]. destruct (semi_reads semi a2 rest b2 Ha2 Hf) as [b3 E3]. rewrite E3. cbn [bind].
        exists b3. reflexivity.
Qed.

Lemma one_reads c a rest : triple_syntax c -> plain_te c -> clear_names (te_toks c) ->
  length (te_toks c) + 1 <= n -> List.map snd a = te_toks c -> starts after_te rest ->
  exists b, one_of_triple_expr n rec_se rec_te (setf false (a ++ rest)) = Ok (te_tree c) (setf b rest).
Proof.
  intros Hs Hp Hcl Hn Ha Hf. unfold one_of_triple_expr, alt. rewrite multi_one_eq.
  assert (Hfg : starts after_group rest)
    by (eapply starts_imp; [|exact Hf]; unfold after_te, after_group; cbn; tauto).
  assert (Hend : forall b, parts PBar (group_triple_expr n rec_se rec_te) (setf b rest) = Err).
  { intros b. apply parts_end. eapply starts_imp; [|exact Hf]. unfold after_te. cbn. intuition (subst; discriminate). }
  destruct (le_lt_dec (tlevel c) 1) as [Hl1|Hl1].
  - destruct (group_reads c a rest Hl1 Hs Hp Hcl Hn Ha Hfg) as [b E]. rewrite E. cbn [bind].
    unfold many1 at 1. rewrite tws0_set, Hend. exists b. reflexivity.
  - destruct c as [l|l semi|l|id t c an ac|id s p v c an ac]; cbn in Hl1; try lia.
    cbn [te_toks triple_syntax plain_te] in *. destruct Hs as [Hlen Hs]. apply all_one in Hs. apply all_plain_te in Hp.
    destruct l as [|c1 [|c2 l]]; [cbn in Hlen; lia|cbn in Hlen; lia|].
    rewrite Forall_forall in Hs, Hp.
    set (tl := c2 :: l) in *. cbn [List.map] in Ha, Hn, Hcl. rewrite between_cons, flat_map_map in Ha, Hn, Hcl.
    rewrite app_length in Hn. apply clear_app in Hcl. destruct Hcl as [Hc1 Hc2].
    apply lay_app in Ha. destruct Ha as (a3 & a4 & -> & Ha3 & Ha4). rewrite <- app_assoc.
    assert (Hsu : after_group (TP PBar)) by (unfold after_group; cbn; tauto).
    destruct (group_reads c1 a3 (a4 ++ rest)) as [b E]; try assumption; try lia;
      try (apply Hs; left; reflexivity); try (apply Hp; left; reflexivity).
    { subst tl. cbn [flat_map] in Ha4. eapply starts_app; [exact Ha4|exact Hsu]. }
    rewrite E. cbn [bind]. rewrite tws0_set.
    destruct (parts_read PBar (group_triple_expr n rec_se rec_te) after_group rest Hsu Hfg Hend tl) with
      (a := a4) (b := false) as [b2 E2].
    + intros c' a' r Hin Ha' Hr.
      pose proof (len_flat (fun c => TP PBar :: te_toks c) tl c' Hin) as Hl'. cbn [length] in Hl'.
      apply group_reads; try assumption.
      * apply Hs. right. exact Hin.
      * apply Hs. right. exact Hin.
      * apply Hp. right. exact Hin.
      * eapply clear_cons, (clear_flat (fun c => TP PBar :: te_toks c)); eassumption.
      * lia.
    + discriminate.
    + pose proof (len_items (TP PBar) te_toks tl). lia.
    + exact Ha4.
    + rewrite E2. exists b2. reflexivity.
Qed.
Lemma one_none r : one_of_triple_expr n rec_se rec_te ((false, TP PRBrace) :: r) = Err.
Proof. reflexivity. Qed.

End Reading.

(** * The recursion *)

Theorem expressions_read n :
  (forall inl c a rest, length (se_toks c) + 2 <= n ->
     shape_syntax inl c -> plain inl c -> clear_names (se_toks c) -> List.map snd a = se_toks c ->
     starts (after_or inl) rest ->
     exists b, shape_expression n inl (setf false (a ++ rest)) = Ok (se_tree c) (setf b rest)) /\
  (forall c a rest, length (te_toks c) + 2 <= n ->
     triple_syntax c -> plain_te c -> clear_names (te_toks c) -> List.map snd a = te_toks c ->
     starts after_te rest ->
     exists b, triple_expression n (setf false (a ++ rest)) = Ok (te_tree c) (setf b rest)).
Proof.
  induction n as [|n [IHs IHt]]; [split; intros; lia|].
  assert (H0 : forall r, 1 <= n -> triple_expression n ((false, TP PRBrace) :: r) = Err).
  { intros r H. destruct n; [lia|]. apply one_none. }
  split.
  - intros inl c a rest Hn Hs Hp Hc Ha Hf. cbn [shape_expression]. apply or_reads; try assumption. lia.
  - intros c a rest Hn Hs Hp Hc Ha Hf. cbn [triple_expression]. apply one_reads; try assumption. lia.
Qed.

(** * Statements *)

Lemma after_false_true t : after_or false t -> after_or true t.
Proof.
  intros [[H H1] H2]. split; [|exact H2]. split; [|exact H1].
  destruct H; econstructor; try eassumption; reflexivity.
Qed.
Lemma label_calm l ts : label_ok l -> clear_names (label_tok l :: ts) -> calm (label_tok l).
Proof.
  intros H Hc. unfold label_ok in H. destruct l as [[p k|u|]|b]; cbn in *; try exact Logic.I; [|congruence].
  apply (Hc p k). left. reflexivity.
Qed.

Lemma directive_none t b r : quiet t -> directive ((b, t) :: r) = Err.
Proof. intros Q. unfold directive, base_decl, prefix_decl, import_decl. hush Q. reflexivity. Qed.
Lemma start_none n t b r : quiet t -> start n ((b, t) :: r) = Err.
Proof. intros Q. unfold start. hush Q. reflexivity. Qed.

Lemma external_none n r : 3 <= n -> shape_expression n false ((false, TWord "EXTERNAL") :: r) = Err.
Proof. intros H. destruct n as [|[|n]]; [lia|lia|]. reflexivity. Qed.

Lemma stmt_reads s a rest n : stmt_syntax s -> plain_stmt s -> clear_names (stmt_toks s) ->
  length (stmt_toks s) + 2 <= n -> List.map snd a = stmt_toks s ->
  is_directive s \/ starts (after_or false) rest ->
  exists b, statement n (setf false (a ++ rest)) = Ok (stmt_tree s) (setf b rest).
Proof.
  intros Hs Hp Hcl Hn Ha Hf. destruct s as [p i|i|r|l|c|ab l c]; cbn [stmt_toks stmt_syntax plain_stmt] in *;
    unfold statement, alt.
  - apply lay_cons in Ha. destruct Ha as (b1 & a1 & -> & Ha). apply lay_cons in Ha. destruct Ha as (b2 & a2 & -> & Ha).
    apply lay_cons in Ha. destruct Ha as (b3 & a3 & -> & Ha). apply lay_nil in Ha. subst a3.
    destruct (setf_self rest) as [b E]. exists b. rewrite <- E. reflexivity.
  - apply lay_cons in Ha. destruct Ha as (b1 & a1 & -> & Ha). apply lay_cons in Ha. destruct Ha as (b2 & a2 & -> & Ha).
    apply lay_nil in Ha. subst a2.
    destruct (setf_self rest) as [b E]. exists b. rewrite <- E. reflexivity.
  - apply lay_cons in Ha. destruct Ha as (b1 & a1 & -> & Ha). apply lay_cons in Ha. destruct Ha as (b2 & a2 & -> & Ha).
    apply lay_nil in Ha. subst a2.
    destruct (setf_self rest) as [b E]. exists b. rewrite <- E.
    destruct r; [reflexivity|reflexivity|congruence].
  - (* start actions *)
    destruct Hf as [[]|Hf]. destruct Hs as [Hne Hok]. destruct l as [|x l]; [congruence|].
    pose proof (acts_len (x :: l)) as Hl.
    assert (E : many0 (S n) code_decl (setf false (a ++ rest)) = Ok (x :: l) (setf false rest)).
    { apply codes_read; [exact Hok|lia| |exact Ha]. eapply starts_imp; [|exact Hf].
      intros t [[H _] _] ->. inversion H as [| | | | |q Hq|q Hq]; subst; [|discriminate].
      cbn in Hq. intuition discriminate. }
    assert (E0 : directive (setf false (a ++ rest)) = Err /\ start n (setf false (a ++ rest)) = Err
                 /\ shape_expr_decl n (setf false (a ++ rest)) = Err).
    { cbn [flat_map] in Ha. apply lay_cons in Ha. destruct Ha as (b1 & a1 & -> & Ha). repeat split; reflexivity. }
    destruct E0 as (E1 & E2 & E3). rewrite E1, E2, E3. exists false.
    unfold start_actions, map, many1. cbn [many0] in E.
    destruct (code_decl (setf false (a ++ rest))); cbn [bind] in *; try discriminate. rewrite E. reflexivity.
  - (* start *)
    destruct Hf as [[]|Hf].
    apply lay_cons in Ha. destruct Ha as (b1 & a1 & -> & Ha). apply lay_cons in Ha. destruct Ha as (b2 & a2 & -> & Ha).
    cbn [app setf]. cbn [length] in Hn. apply clear_cons, clear_cons in Hcl.
    replace (directive ((false, TWord "START") :: (b2, TP PEqual) :: a2 ++ rest)) with (@Err stmt) by reflexivity.
    unfold start.
    replace (word true "START" ((false, TWord "START") :: (b2, TP PEqual) :: a2 ++ rest))
      with (Ok tt ((b2, TP PEqual) :: a2 ++ rest)) by reflexivity.
    cbn [bind tws0].
    replace (cut (char PEqual) ((false, TP PEqual) :: a2 ++ rest)) with (Ok tt (a2 ++ rest)) by reflexivity.
    cbn [bind].
    destruct (proj1 (expressions_read n) true c a2 rest ltac:(lia) Hs Hp Hcl Ha) as [b E].
    { eapply starts_imp; [|exact Hf]. exact after_false_true. }
    unfold map, cut. rewrite tws0_setf, E. exists b. reflexivity.
  - (* a shape *)
    destruct Hf as [[]|Hf]. destruct Hs as [Hlab Hs].
    assert (E0 : exists b2 a2, directive (setf false (a ++ rest)) = Err /\ start n (setf false (a ++ rest)) = Err
       /\ opt (word_tws true "abstract") (setf false (a ++ rest)) =
            Ok (if ab then Some tt else None) ((false, label_tok l) :: a2 ++ rest)
       /\ List.map snd ((b2, label_tok l) :: a2) =
            label_tok l :: match c with Some c => se_toks c | None => [TWord "EXTERNAL"] end).
    { destruct ab; cbn [app] in Ha.
      - apply lay_cons in Ha. destruct Ha as (b1 & a1 & -> & Ha). pose proof Ha as Ha'.
        apply lay_cons in Ha'. destruct Ha' as (b2 & a2 & -> & Ha'). exists b2, a2.
        split; [reflexivity|]. split; [reflexivity|]. split; [reflexivity|exact Ha].
      - pose proof Ha as Ha'. apply lay_cons in Ha'. destruct Ha' as (b2 & a2 & -> & Ha'). exists b2, a2.
        pose proof (calm_quiet _ (label_calm l _ Hlab Hcl)) as Q. cbn [app setf].
        split; [apply directive_none, Q|]. split; [apply start_none, Q|]. split; [|exact Ha].
        unfold opt, word_tws. cbn [tws0]. rewrite Q by inwords. reflexivity. }
    destruct E0 as (b2 & a2 & E1 & E2 & E3 & Ha2). rewrite E1, E2. unfold shape_expr_decl. rewrite E3.
    cbn [bind]. rewrite (label_reads l _ Hlab). cbn [bind]. cbn [List.map snd] in Ha2. injection Ha2 as Ha2.
    assert (Hcl2 : clear_names (match c with Some c => se_toks c | None => [TWord "EXTERNAL"] end)).
    { intros p k Hin. apply (Hcl p k), in_or_app. right. right. exact Hin. }
    rewrite app_length in Hn. cbn [length] in Hn.
    unfold map, cut, shape_expr_or_external, alt. destruct c as [c|].
    + cbn [when] in *.
      destruct (proj1 (expressions_read n) false c a2 rest ltac:(lia) Hs Hp Hcl2 Ha2 Hf) as [b E].
      rewrite tws0_setf, E. exists b. destruct ab; reflexivity.
    + apply lay_cons in Ha2. destruct Ha2 as (b4 & a4 & -> & Ha2). apply lay_nil in Ha2. subst a4.
      cbn [app tws0]. rewrite external_none by (cbn in Hn; lia).
      destruct (setf_self rest) as [b E]. exists b. rewrite <- E. destruct ab; reflexivity.
Qed.

(** * Documents *)

Lemma stmt_first s : stmt_syntax s -> clear_names (stmt_toks s) ->
  exists t ts, stmt_toks s = t :: ts /\ (~ is_actions s -> after_or false t).
Proof.
  intros Hs Hcl.
  assert (G : forall w, In w next_words -> w <> "AND" -> w <> "OR" -> after_or false (TWord w)).
  { intros w Hw H1 H2. split; [split; [apply aa_word, Hw|congruence]|congruence]. }
  destruct s as [p i|i|r|l|c|ab l c]; cbn [stmt_toks] in *.
  - eexists _, _. split; [reflexivity|]. intros _. apply G; [cbn; tauto|discriminate|discriminate].
  - eexists _, _. split; [reflexivity|]. intros _. apply G; [cbn; tauto|discriminate|discriminate].
  - eexists _, _. split; [reflexivity|]. intros _. apply G; [cbn; tauto|discriminate|discriminate].
  - destruct Hs as [Hne _]. destruct l as [|x l]; [congruence|]. eexists _, _. split; [reflexivity|].
    intros H. exfalso. apply H. exact Logic.I.
  - eexists _, _. split; [reflexivity|]. intros _. apply G; [cbn; tauto|discriminate|discriminate].
  - destruct ab; cbn [app] in *.
    + eexists _, _. split; [reflexivity|]. intros _. apply G; [cbn; tauto|discriminate|discriminate].
    + eexists _, _. split; [reflexivity|]. intros _. destruct Hs as [Hl _]. unfold label_ok in Hl.
      destruct l as [[p k|u|]|b]; cbn in *; [| |congruence|]; (split; [split; [|discriminate]|discriminate]).
      * apply aa_name, (Hcl p k). left. reflexivity.
      * apply aa_iri.
      * apply aa_bnode.
Qed.

(** Actions stand only behind directives. *)
Fixpoint ordered (d : list cstmt) : Prop :=
  match d with
  | [] => True
  | s :: d' => (is_directive s \/ match d' with [] => True | s' :: _ => ~ is_actions s' end) /\ ordered d'
  end.
Lemma doc_ordered d : doc_syntax d -> ordered d.
Proof.
  intros (_ & before & after & -> & Hb & Ha). induction Hb as [|s before Hs Hb IH]; cbn [app].
  - destruct after as [|s l]; [exact Logic.I|]. split.
    + right. destruct l as [|s' l]; [exact Logic.I|]. inversion Ha; assumption.
    + induction l as [|s' l IH]; [exact Logic.I|]. inversion Ha as [|? ? H1 H2]; subst. split; [|apply IH, H2].
      right. destruct l as [|s2 l]; [exact Logic.I|]. inversion H2; assumption.
  - split; [left; exact Hs|exact IH].
Qed.

Lemma statements_read n : forall d k acc a,
  ordered d -> Forall stmt_syntax d -> Forall plain_stmt d -> clear_names (doc_toks d) ->
  length (doc_toks d) + 2 <= n -> length d <= k -> List.map snd a = doc_toks d ->
  statements k n acc (setf false a) = Statements (acc ++ List.map stmt_tree d).
Proof.
  induction d as [|s d IH]; intros k acc a Ho Hs Hp Hcl Hn Hk Ha.
  - apply lay_nil in Ha. subst a. cbn. rewrite app_nil_r. destruct k; reflexivity.
  - unfold doc_toks in Ha, Hn, Hcl. cbn [flat_map] in Ha, Hn, Hcl. fold (doc_toks d) in Ha, Hn, Hcl.
    apply lay_app in Ha. destruct Ha as (a1 & a2 & -> & Ha1 & Ha2). rewrite app_length in Hn.
    apply clear_app in Hcl. destruct Hcl as [Hcl1 Hcl2].
    inversion Hs as [|? ? Hs1 Hs2]; subst. inversion Hp as [|? ? Hp1 Hp2]; subst. destruct Ho as [Ho1 Ho2].
    destruct k as [|k]; [cbn in Hk; lia|].
    destruct (stmt_reads s a1 a2 n Hs1 Hp1 Hcl1 ltac:(lia) Ha1) as [b E].
    { destruct Ho1 as [Ho1|Ho1]; [left; exact Ho1|right]. destruct d as [|s' d].
      - apply lay_nil in Ha2. subst a2. exact Logic.I.
      - unfold doc_toks in Ha2, Hcl2. cbn [flat_map] in Ha2, Hcl2. apply clear_app in Hcl2. destruct Hcl2 as [Hc _].
        inversion Hs2; subst. destruct (stmt_first s') as (t & ts & Et & Ht); [assumption|exact Hc|].
        rewrite Et in Ha2. apply lay_cons in Ha2. destruct Ha2 as (b1 & a3 & -> & _). apply Ht, Ho1. }
    destruct (stmt_first s Hs1 Hcl1) as (t & ts & Et & _). rewrite Et in Ha1. pose proof Ha1 as Ha1'.
    apply lay_cons in Ha1'. destruct Ha1' as (b1 & a3 & -> & _). cbn [app setf statements] in *.
    rewrite E. rewrite tws0_set. rewrite (IH k (acc ++ [stmt_tree s]) a2 Ho2 Hs2 Hp2 Hcl2 ltac:(lia) ltac:(cbn in Hk; lia) Ha2).
    rewrite <- app_assoc. reflexivity.
Qed.

Lemma stmt_toks_pos s : stmt_syntax s -> 1 <= length (stmt_toks s).
Proof.
  destruct s as [p i|i|r|l|c|ab l c]; cbn; try lia.
  - intros [H _]. destruct l; [congruence|]. cbn. lia.
  - intros _. rewrite app_length. cbn. lia.
Qed.
Lemma doc_len d : Forall stmt_syntax d -> length d <= length (doc_toks d).
Proof.
  induction 1 as [|s d Hs H IH]; cbn; [lia|]. rewrite app_length. pose proof (stmt_toks_pos s Hs). fold (doc_toks d). lia.
Qed.

Theorem documents_read d i n : doc_syntax d -> Forall plain_stmt d -> clear_names (doc_toks d) ->
  lays_out (doc_toks d) i -> length i + 2 <= n -> parse n i = Statements (List.map stmt_tree d).
Proof.
  intros Hd Hp Hcl Hi Hn. unfold parse. rewrite tws0_setf.
  assert (Hl : length i = length (doc_toks d)) by (rewrite <- Hi, map_length; reflexivity).
  pose proof (doc_len d (proj1 Hd)).
  apply (statements_read n d n [] i (doc_ordered d Hd) (proj1 Hd) Hp Hcl); [lia|lia|exact Hi].
Qed.
