(** All selections are tried. *)
From Coq Require Import List Arith Bool Lia Permutation.
Import ListNotations.
From Verif Require Import TableModel GraphModel ClassModel ExtModel ExtSpec ExtLemmas EngineModel EngineSpec EngineShape
  XtdModel XtdSpec XtdPart XtdRes XtdSel XtdChk.

(** ** the selector *)
Fixpoint fits (alts : list (list alternative)) (sel : list nat) : Prop :=
  match alts, sel with
  | [], [] => True
  | a :: alts, d :: sel => d < length a /\ fits alts sel
  | _, _ => False
  end.
Fixpoint before (sel sel' : list nat) : Prop :=
  match sel, sel' with
  | d :: sel, d' :: sel' => before sel sel' \/ (sel = sel' /\ d < d')
  | _, _ => False
  end.
Fixpoint left_over (alts : list (list alternative)) (sel : list nat) : nat :=
  match alts, sel with
  | a :: alts, d :: sel => (length a - 1 - d) + length a * left_over alts sel
  | _, _ => 0
  end.
Fixpoint choices (alts : list (list alternative)) (sigma : alternative) : list alternative :=
  match alts with [] => [sigma] | a :: alts => flat_map (fun x => choices alts (merge sigma x)) a end.

Lemma advance_spec alts : forall sel, fits alts sel ->
  match advance alts sel with
  | Some s => fits alts s /\ S (left_over alts s) = left_over alts sel /\ forall t, fits alts t -> before sel t -> s = t \/ before s t
  | None => forall t, fits alts t -> ~ before sel t
  end.
Proof.
  induction alts as [|a alts IH]; intros [|d sel] F; try destruct F as []; cbn [advance].
  { intros [|d t] _ []. }
  destruct (Nat.ltb_spec (S d) (length a)) as [L|L].
  - split; [split; assumption|]. split; [cbn [left_over]; lia|]. intros [|d' t] Ft Bt; [destruct Bt|]. cbn [before] in *.
    destruct Bt as [Bt|[<- Bt]]; [right; left; exact Bt|]. destruct (Nat.eq_dec (S d) d') as [->|N]; [left; reflexivity|right; right; split; [reflexivity|lia]].
  - specialize (IH sel H0). destruct (advance alts sel) as [s|]; cbn [option_map].
    + destruct IH as (F' & LO & B). split; [split; [lia|exact F']|]. split; [cbn [left_over]; rewrite <- LO; nia|].
      intros [|d' t] Ft Bt; [destruct Bt|]. cbn [before] in *. destruct Ft as [Fd Ft]. destruct Bt as [Bt|[<- Bt]]; [|lia].
      destruct (B t Ft Bt) as [->|B']; [|right; left; exact B']. destruct d' as [|d']; [left; reflexivity|right; right; split; [reflexivity|lia]].
    + intros [|d' t] Ft Bt; [destruct Bt|]. cbn [before] in *. destruct Ft as [Fd Ft]. destruct Bt as [Bt|[<- Bt]]; [exact (IH t Ft Bt)|lia].
Qed.

Lemma pick_fits alts : forall sel sigma, fits alts sel -> exists x, pick alts sel sigma = Some x /\ In x (choices alts sigma).
Proof.
  induction alts as [|a alts IH]; intros [|d sel] sigma F; try destruct F as []; cbn [pick choices].
  - exists sigma. split; [reflexivity|left; reflexivity].
  - destruct (nth_error a d) as [y|] eqn:E; [|apply nth_error_None in E; lia]. destruct (IH sel (merge sigma y) H0) as (x & P & I). exists x.
    split; [exact P|]. apply in_flat_map. exists y. split; [exact (nth_error_In _ _ E)|exact I].
Qed.
Lemma choices_pick alts : forall sigma x, In x (choices alts sigma) -> exists sel, fits alts sel /\ pick alts sel sigma = Some x.
Proof.
  induction alts as [|a alts IH]; intros sigma x H; cbn [choices] in H.
  - destruct H as [<-|[]]. exists []. split; [exact Logic.I|reflexivity].
  - apply in_flat_map in H. destruct H as (y & Hy & H). destruct (IH _ _ H) as (sel & F & P). apply In_nth_error in Hy. destruct Hy as (d & E).
    exists (d :: sel). split; [split; [apply nth_error_Some; congruence|exact F]|]. cbn [pick]. rewrite E. exact P.
Qed.

Lemma selections_spec check alts : forall f sel b, fits alts sel -> selections f check alts sel = Some b ->
  (b = true -> exists x, In x (choices alts alt_default) /\ check x = Some true) /\
  (b = false -> forall t x, fits alts t -> t = sel \/ before sel t -> pick alts t alt_default = Some x -> check x = Some false).
Proof.
  induction f as [|f IH]; intros sel b F H; [discriminate|]. cbn [selections] in H. destruct (pick_fits alts sel alt_default F) as (x & P & I).
  rewrite P in H. destruct (check x) as [[|]|] eqn:C; [| |discriminate].
  - injection H as <-. split; [intros _; exists x; auto|discriminate].
  - pose proof (advance_spec alts sel F) as A. destruct (advance alts sel) as [s|].
    + destruct A as (F' & _ & B). destruct (IH s b F' H) as [I1 I2]. split; [exact I1|]. intros E t y Ft [->|Bt] Pt.
      * congruence.
      * apply (I2 E t y Ft); [|exact Pt]. destruct (B t Ft Bt) as [->|B']; auto.
    + injection H as <-. split; [discriminate|]. intros _ t y Ft [->|Bt] Pt; [congruence|]. destruct (A t Ft Bt).
Qed.
Lemma selections_total check alts : (forall x, In x (choices alts alt_default) -> exists b, check x = Some b) ->
  forall f sel, fits alts sel -> left_over alts sel < f -> exists b, selections f check alts sel = Some b.
Proof.
  intro H. induction f as [|f IH]; intros sel F L; [lia|]. cbn [selections]. destruct (pick_fits alts sel alt_default F) as (x & P & I). rewrite P.
  destruct (H x I) as ([|] & ->); [eauto|]. pose proof (advance_spec alts sel F) as A. destruct (advance alts sel) as [s|]; [|eauto].
  destruct A as (F' & LO & _). apply IH; [exact F'|lia].
Qed.
Lemma fits_zero alts : (forall a, In a alts -> a <> []) -> fits alts (repeat 0 (length alts)).
Proof.
  induction alts as [|a alts IH]; intro H; [exact Logic.I|]. cbn [length repeat fits]. split; [|apply IH; intros x Hx; apply H; right; exact Hx].
  specialize (H a (or_introl eq_refl)). destruct a; [congruence|simpl; lia].
Qed.
Lemma zero_first alts : forall t, fits alts t -> t = repeat 0 (length alts) \/ before (repeat 0 (length alts)) t.
Proof.
  induction alts as [|a alts IH]; intros [|d t] F; try destruct F as []; cbn [length repeat]; [left; reflexivity|].
  destruct (IH t H0) as [->|B]; [|right; left; exact B]. destruct d as [|d]; [left; reflexivity|right; right; split; [reflexivity|lia]].
Qed.
Lemma selections_all check alts f b : (forall a, In a alts -> a <> []) -> selections f check alts (repeat 0 (length alts)) = Some b ->
  (b = true -> exists x, In x (choices alts alt_default) /\ check x = Some true) /\
  (b = false -> forall x, In x (choices alts alt_default) -> check x = Some false).
Proof.
  intros H E. destruct (selections_spec check alts f _ b (fits_zero alts H) E) as [S1 S2]. split; [exact S1|].
  intros Eb x Hx. destruct (choices_pick alts _ x Hx) as (t & Ft & Pt). exact (S2 Eb t x Ft (zero_first alts t Ft) Pt).
Qed.

(** ** choices are resolutions *)
Section Main.
  Variable sch : schema.
  Variable rank : nat -> nat.
  Hypothesis H_rank : grounded sch rank.
  Hypothesis H_or : ors_nonempty sch.

  Lemma choices_sound ps : forall sigma x, In x (choices (map (extend_alternatives sch) ps) sigma) ->
    exists B K, resolves_all sch ps B K /\ forall B0 K0, represents sigma B0 K0 -> represents x (B0 ++ B) (K0 ++ K).
  Proof.
    induction ps as [|p ps IH]; intros sigma x H; cbn [map choices] in H.
    - destruct H as [<-|[]]. exists [], []. split; [constructor|]. intros B0 K0. rewrite !app_nil_r. auto.
    - apply in_flat_map in H. destruct H as (y & Hy & H). destruct (extend_alternatives_right sch rank H_rank H_or p) as (S & _).
      destruct (S y Hy) as (B1 & K1 & R1 & P1). destruct (IH _ _ H) as (B2 & K2 & R2 & P2). exists (B1 ++ B2), (K1 ++ K2).
      split; [constructor; assumption|]. intros B0 K0 P0. rewrite !app_assoc. apply P2. apply represents_merge; assumption.
  Qed.
  Lemma choices_complete ps B K : resolves_all sch ps B K -> forall sigma, exists x, In x (choices (map (extend_alternatives sch) ps) sigma) /\
    forall B0 K0, represents sigma B0 K0 -> represents x (B0 ++ B) (K0 ++ K).
  Proof.
    revert B K. induction ps as [|p ps IH]; intros B K R sigma; inversion R as [|? ? B1 K1 B2 K2 R1 R2]; subst; cbn [map choices].
    - exists sigma. split; [left; reflexivity|]. intros B0 K0. rewrite !app_nil_r. auto.
    - destruct (extend_alternatives_right sch rank H_rank H_or p) as (_ & C & _). destruct (C B1 K1 R1) as (y & Hy & P1).
      destruct (IH B2 K2 R2 (merge sigma y)) as (x & Hx & P2). exists x. split; [apply in_flat_map; exists y; auto|].
      intros B0 K0 P0. rewrite !app_assoc. apply P2. apply represents_merge; assumption.
  Qed.
  Lemma alternatives_nonempty ps a : In a (map (extend_alternatives sch) ps) -> a <> [].
  Proof. intro H. apply in_map_iff in H. destruct H as (p & <- & _). apply (extend_alternatives_right sch rank H_rank H_or p). Qed.

  Lemma two_ways_long p : two_ways sch p -> 1 < length (extend_alternatives sch p).
  Proof.
    intros (B & K & B' & K' & R & R' & b & Hb & Nb). destruct (extend_alternatives_right sch rank H_rank H_or p) as (_ & C & _).
    destruct (C B K R) as (a & Ha & (_ & P & _)). destruct (C B' K' R') as (a' & Ha' & (_ & P' & _)).
    destruct (extend_alternatives sch p) as [|x [|y l]]; [destruct Ha| |simpl; lia]. exfalso. destruct Ha as [<-|[]], Ha' as [<-|[]].
    apply Nb, P', P. exact Hb.
  Qed.

  Variable eval : nat -> nat -> bool.
  Variable external : nat -> nat -> bool.
  Variable border : list (option nat * table) -> list (option nat * table).
  Variable corder : list class -> list class.
  Variable g : rdf.
  Variable T : typing.
  Hypothesis H_g : NoDup g.
  Hypothesis H_border : forall l, Permutation (border l) l.
  Hypothesis H_corder : forall l, Permutation l (corder l).
  Variable s : shape.
  Hypothesis H_well : well_extended sch s.
  Notation TK := (fun k => T (node_of k) (label_of k)).

  Lemma selections_right f n b :
    selections f (fun sigma => check_selection eval border corder sch g f (fun i => check_constraint eval external border corder sch g f n i TK) n s sigma TK)
      (map (extend_alternatives sch) (s_extends s)) (repeat 0 (length (map (extend_alternatives sch) (s_extends s)))) = Some b ->
    (b = true <-> extends_holds eval external sch g T n s).
  Proof.
    intro H. destruct H_well as [OWN WELL]. apply selections_all in H; [|apply alternatives_nonempty]. destruct H as [H1 H2]. split.
    - intro E. destruct (H1 E) as (x & Hx & C). destruct (choices_sound _ _ _ Hx) as (B & K & R & P). specialize (P [] [] represents_default). cbn [app] in P.
      destruct (WELL B K R) as (W1 & W2 & W3). destruct (proj2 (resolves_facts sch) _ _ _ R) as [F1 F2].
      exists B, K. split; [exact R|].
      apply (selection_spec eval external border corder sch g T n H_g H_border H_corder s x B K P F1 F2 OWN W1 W2 W3 _ _ C). reflexivity.
    - intros (B & K & R & SO). destruct b; [reflexivity|]. specialize (H2 eq_refl).
      destruct (choices_complete _ B K R alt_default) as (x & Hx & P). specialize (P [] [] represents_default). cbn [app] in P.
      destruct (WELL B K R) as (W1 & W2 & W3). destruct (proj2 (resolves_facts sch) _ _ _ R) as [F1 F2]. specialize (H2 x Hx).
      apply (selection_spec eval external border corder sch g T n H_g H_border H_corder s x B K P F1 F2 OWN W1 W2 W3) in H2. apply H2 in SO. exact SO.
  Qed.

  Lemma selections_end n : exists f0, forall f, f0 <= f -> exists b,
    selections f (fun sigma => check_selection eval border corder sch g f (fun i => check_constraint eval external border corder sch g f n i TK) n s sigma TK)
      (map (extend_alternatives sch) (s_extends s)) (repeat 0 (length (map (extend_alternatives sch) (s_extends s)))) = Some b.
  Proof.
    destruct H_well as [OWN WELL]. set (alts := map (extend_alternatives sch) (s_extends s)).
    assert (A : exists f0, forall f x, f0 <= f -> In x (choices alts alt_default) -> exists b,
      check_selection eval border corder sch g f (fun i => check_constraint eval external border corder sch g f n i TK) n s x TK = Some b).
    { assert (X : forall x, In x (choices alts alt_default) -> exists f0, forall f, f0 <= f -> exists b,
        check_selection eval border corder sch g f (fun i => check_constraint eval external border corder sch g f n i TK) n s x TK = Some b).
      { intros x Hx. destruct (choices_sound _ _ _ Hx) as (B & K & R & P). specialize (P [] [] represents_default). cbn [app] in P.
        destruct (WELL B K R) as (W1 & W2 & W3). destruct (proj2 (resolves_facts sch) _ _ _ R) as [F1 F2].
        exact (selection_total eval external border corder sch g T n H_border H_corder s x B K P OWN W1 W2 W3). }
      revert X. generalize (choices alts alt_default) as l. intro l. induction l as [|x l IH]; intro X; [exists 0; intros f x _ []|].
      destruct (X x (or_introl eq_refl)) as (f1 & H1). destruct (IH (fun y Hy => X y (or_intror Hy))) as (f2 & H2). exists (f1 + f2).
      intros f y L [<-|Hy]; [apply H1; lia|apply H2; [lia|exact Hy]]. }
    destruct A as (f0 & A). exists (f0 + S (left_over alts (repeat 0 (length alts)))). intros f L. apply selections_total.
    - intros x Hx. apply A; [lia|exact Hx].
    - apply fits_zero. apply alternatives_nonempty.
    - lia.
  Qed.

  Lemma path_taken l n f p : In p (s_extends s) -> two_ways sch p ->
    check_shape_extends eval external border corder sch g f l n s TK =
    selections f (fun sigma => check_selection eval border corder sch g f (fun i => check_constraint eval external border corder sch g f n i TK) n s sigma TK)
      (map (extend_alternatives sch) (s_extends s)) (repeat 0 (length (map (extend_alternatives sch) (s_extends s)))).
  Proof.
    intros Hp W. unfold check_shape_extends. assert (existsb (fun a => 1 <? length a) (map (extend_alternatives sch) (s_extends s)) = true) as ->; [|reflexivity].
    apply existsb_exists. exists (extend_alternatives sch p). split; [apply in_map; exact Hp|]. apply Nat.ltb_lt. apply two_ways_long. exact W.
  Qed.

  Theorem extends_right l n p : In p (s_extends s) -> two_ways sch p ->
    (forall f b, check_shape_extends eval external border corder sch g f l n s TK = Some b -> (b = true <-> extends_holds eval external sch g T n s)) /\
    (exists f0, forall f, f0 <= f -> exists b, check_shape_extends eval external border corder sch g f l n s TK = Some b).
  Proof.
    intros Hp W. split.
    - intros f b H. rewrite (path_taken l n f p Hp W) in H. exact (selections_right f n b H).
    - destruct (selections_end n) as (f0 & H). exists f0. intros f L. destruct (H f L) as (b & E). exists b. rewrite (path_taken l n f p Hp W). exact E.
  Qed.
End Main.
