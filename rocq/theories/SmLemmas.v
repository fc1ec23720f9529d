(** Positions, keywords and what the alternatives refuse. *)
From Coq Require Import List NArith Bool Lia.
From Verif Require Import LexModel LexSpec LexCore LexLemmas LexNames LexPn LexLocal LexIri LexRest LexPrint SmModel SmSpec.
Import ListNotations.
Local Open Scope N_scope.

(** * Positions *)

Definition suf (r i : str) : Prop := exists a, i = a ++ r.
Lemma suf_refl : forall i, suf i i. Proof. intros i. exists []. reflexivity. Qed.
Lemma suf_trans : forall a b c, suf a b -> suf b c -> suf a c.
Proof. intros a b c (x & ->) (y & ->). exists (y ++ x). rewrite app_assoc. reflexivity. Qed.
Lemma suf_cons : forall r c i, suf r i -> suf r (c :: i).
Proof. intros r c i (a & ->). exists (c :: a). reflexivity. Qed.
Lemma suf_tail : forall r c i, suf (c :: r) i -> suf r i.
Proof. intros r c i (a & ->). exists (a ++ [c]). rewrite <- app_assoc. reflexivity. Qed.
Lemma suf_len : forall r i, suf r i -> (length r <= length i)%nat.
Proof. intros r i (a & ->). rewrite app_length. lia. Qed.
Lemma suf_skip : forall i r, skip i r -> suf r i.
Proof.
  intros i r H. induction H as [i|c i r Hc H IH|w i r F N H (a & ->)|w i r F H (a & ->)].
  - apply suf_refl.
  - apply suf_cons, IH.
  - exists (35 :: w ++ a). cbn. rewrite <- app_assoc. reflexivity.
  - exists ([47; 42] ++ w ++ [42; 47] ++ a). rewrite <- !app_assoc. reflexivity.
Qed.
Lemma suf_ok : forall r i, suf r i -> ~ trouble i -> ~ trouble r.
Proof. intros r i (a & ->) H K. apply H, trouble_on, K. Qed.
Lemma suf_takes : forall A (L : lang A) i r v, takes L i r v -> suf r i.
Proof. intros A L i r v (w & (E & _) & _). exists w. exact E. Qed.

(** Nothing to pass over. *)
Definition clean (i : str) : Prop := forall r, skip i r -> r = i.
Definition solid (c : char) : Prop := ~ In c [32; 9; 13; 10; 35; 47].
Lemma solid_clean : forall (c : N) (i : list N), solid c -> clean (c :: i).
Proof.
  intros c i H r K. inversion K as [|c0 i0 r0 Hc|w i0 r0 F N Sk E|w i0 r0 F Sk E]; subst; [reflexivity| | |].
  - destruct H. cbn in *. tauto.
  - destruct H. cbn. tauto.
  - destruct H. cbn. tauto.
Qed.
Lemma clean_nil : clean [].
Proof. intros r K. inversion K. reflexivity. Qed.
Lemma tws0_clean : forall i, clean i -> tws0 i = Ok tt i.
Proof. intros i H. apply tws0_skips. split; [constructor|exact H]. Qed.
Lemma tws0_to : forall i r, skip i r -> clean r -> tws0 i = Ok tt r.
Proof. intros i r H K. apply tws0_skips. split; assumption. Qed.
(** From wherever the white space has been left. *)
Lemma tws0_from : forall i r i', skip i r -> clean r -> skip i i' -> tws0 i' = Ok tt r.
Proof. intros i r i' H K H'. apply tws0_to; [|exact K]. exact (skip_join _ _ H' _ H K). Qed.
Lemma tws0_ok : forall i u r, tws0 i = Ok u r -> skip i r /\ clean r.
Proof. intros i [] r H. apply tws0_skips in H. exact H. Qed.
Lemma tws0_step : forall i, exists r, tws0 i = Ok tt r /\ skip i r /\ clean r.
Proof. intros i. destruct (tws0_total i) as (r & E & Sk & C). exists r. split; [exact E|split; [exact Sk|exact C]]. Qed.

(** * First characters *)

Lemma base_range : forall c, PN_CHARS_BASE c -> 65 <= c <= 90 \/ 97 <= c <= 122 \/ 0xC0 <= c.
Proof. intros c (r & H & K). cbn [In] in H. repeat (destruct H as [<-|H]; [cbn [fst snd] in K; lia|]). destruct H. Qed.
Lemma iri_first : forall w x, IRI w x -> exists c s, w = c :: s /\ (c = 60 \/ c = 58 \/ PN_CHARS_BASE c).
Proof.
  assert (N : forall w p, single_dots w p -> exists c s, w = c :: s /\ (c = 58 \/ PN_CHARS_BASE c)).
  { intros w p ((-> & [->|(c & s & -> & B & _)]) & _); [exists 58, []; auto|]. exists c, (s ++ [58]). cbn. auto. }
  intros w x [(s & _ & (m & -> & _))|[(w1 & w2 & a & b & -> & _ & H & _)|(p & _ & H)]].
  - exists 60, (m ++ [62]). cbn. auto.
  - destruct (N _ _ H) as (c & s & -> & K). exists c, (s ++ w2). cbn. tauto.
  - destruct (N _ _ H) as (c & s & -> & K). exists c, s. tauto.
Qed.
Lemma string_first : forall w s, strings 0 w s -> exists c t, w = c :: t /\ quote c.
Proof.
  assert (Q1 : quote 39) by (left; reflexivity). assert (Q2 : quote 34) by (right; reflexivity).
  intros w s [[(vs & _ & m & -> & _)|(vs & _ & m & -> & _)]|[(m & -> & _)|(m & -> & _)]]; cbn; eauto.
Qed.
Lemma lit_first : forall w l, LIT w l -> exists c t, w = c :: t /\ quote c.
Proof.
  intros w l [(s & _ & H)|[(w1 & w2 & a & b & -> & _ & H & _)|(w1 & w2 & a & b & -> & _ & H & _)]];
    destruct (string_first _ _ H) as (c & t & -> & Q); cbn; eauto.
Qed.
Lemma number_first : forall w x, NUMBER w x -> exists c t, w = c :: t /\ (c = 43 \/ c = 45 \/ c = 46 \/ digit c).
Proof.
  assert (D : forall d r, digits1 d -> exists c t, d ++ r = c :: t /\ (c = 43 \/ c = 45 \/ c = 46 \/ digit c)).
  { intros [|c d] r (H & F); [congruence|]. inversion F; subst. cbn. eauto 10. }
  assert (Z : forall s r, signs s -> (exists c t, r = c :: t /\ (c = 43 \/ c = 45 \/ c = 46 \/ digit c)) ->
            exists c t, s ++ r = c :: t /\ (c = 43 \/ c = 45 \/ c = 46 \/ digit c)).
  { intros s r [->|[->| ->]] H; cbn; eauto 10. }
  intros w (s0 & k) (_ & H). cbn [snd] in H. destruct k.
  - destruct H as (s & d & -> & Hs & Hd). apply Z; [exact Hs|]. rewrite <- (app_nil_r d). apply D, Hd.
  - destruct H as (s & d & f & -> & Hs & Hd & Hf). apply Z; [exact Hs|]. destruct d as [|c d]; cbn; [eauto 10|]. inversion Hd; subst. eauto 10.
  - destruct H as (s & m & e & -> & Hs & _ & H). apply Z; [exact Hs|]. destruct H as [(d & f & -> & Hd & _)|[Hm|(d & -> & _)]].
    + rewrite <- app_assoc. apply D, Hd.
    + apply D, Hm.
    + cbn. eauto 10.
Qed.
Lemma label_first : forall w l, label_dots w l -> exists t, w = 95 :: t.
Proof. intros w l (-> & _). cbn. eauto. Qed.

Lemma solid_base : forall c, PN_CHARS_BASE c -> solid c.
Proof. intros c H K. apply base_range in H. cbn [In] in K. repeat (destruct K as [<-|K]; [lia|]). destruct K. Qed.
Lemma solid_iri : forall c, c = 60 \/ c = 58 \/ PN_CHARS_BASE c -> solid c.
Proof. intros c [->|[->|H]]; [cbv; intuition discriminate|cbv; intuition discriminate|apply solid_base, H]. Qed.
Lemma solid_quote : forall c, quote c -> solid c.
Proof. intros c [->| ->]; cbv; intuition discriminate. Qed.
Lemma solid_number : forall c, c = 43 \/ c = 45 \/ c = 46 \/ digit c -> solid c.
Proof.
  intros c H K. unfold digit in H. cbn [In] in K. repeat (destruct K as [<-|K]; [lia|]). destruct K.
Qed.

(** * What is refused *)

Lemma label_err : forall (c : N) (i : list N), c <> 95 -> blank_node_label (c :: i) = Err.
Proof. intros c i H. unfold blank_node_label. rewrite tag_differs by congruence. reflexivity. Qed.
Lemma is_err : forall (c d : N) (i : list N), c <> d -> is c (d :: i) = Err.
Proof. intros c d i H. unfold is, satisfy. destruct (N.eqb_spec c d); [congruence|reflexivity]. Qed.
Lemma is_ok : forall (c : N) (i : list N), is c (c :: i) = Ok c i.
Proof. intros c i. unfold is, satisfy. rewrite N.eqb_refl. reflexivity. Qed.
Lemma iri_no : forall i, ~ trouble i -> (forall w r x, i = w ++ r -> ~ IRI w x) -> iri i = Err.
Proof.
  intros i T H. pose proof (reads_iri i) as K. pose proof (soft_iri i) as F. destruct (iri i) as [v r| | |]; [|reflexivity|congruence|tauto].
  destruct K as (w & E & V & _). destruct (H w r v E). apply V. reflexivity.
Qed.
Lemma iri_err : forall (c : N) (i : list N), ~ trouble (c :: i) -> c <> 60 -> c <> 58 -> ~ PN_CHARS_BASE c -> iri (c :: i) = Err.
Proof.
  intros c i T H1 H2 H3. apply iri_no; [exact T|]. intros w r x E H. destruct (iri_first _ _ H) as (c' & s & -> & K).
  cbn in E. injection E as <- _. tauto.
Qed.
(** A word of letters that ends is no name. *)
Lemma iri_word : forall w r, w <> [] -> ~ trouble (w ++ r) -> Forall letter w -> word_ends r -> iri (w ++ r) = Err.
Proof.
  intros w r NE T F E. apply iri_no; [exact T|]. intros w' r' x EQ H.
  assert (Lt : forall c, In c w -> letter c) by (apply Forall_forall; exact F).
  assert (N : forall u p t, single_dots u p -> w ++ r <> u ++ t).
  { intros u p t ((-> & Hp) & _) EQ2. assert (F2 : Forall in_name (p ++ [58])).
    { apply Forall_app. split; [|constructor; [right; right; reflexivity|constructor]]. destruct Hp as [->|(c & s & -> & B & Hs)]; [constructor|].
      constructor; [left; apply base_char, B|]. destruct Hs as [->|(m & d & -> & Fm & D)]; [constructor|]. apply Forall_app. split.
      - eapply Forall_impl; [|exact Fm]. intros a [->|Pa]; [right; left; reflexivity|left; exact Pa].
      - constructor; [left; exact D|constructor]. }
    pose proof (run_longest in_name w r (p ++ [58]) t EQ2 F2 E) as L. destruct (app_short _ _ _ _ (eq_sym EQ2) L) as (m & Ew & _).
    assert (I : In 58 w) by (rewrite Ew; apply in_or_app; left; apply in_or_app; right; left; reflexivity).
    specialize (Lt _ I). unfold letter in Lt. lia. }
  destruct H as [(s & _ & (m & -> & _))|[(w1 & w2 & a & b & -> & _ & H & _)|(p & _ & H)]].
  - destruct w as [|c w]; [congruence|]. cbn in EQ. injection EQ as -> _. specialize (Lt 60 (or_introl eq_refl)). unfold letter in Lt. lia.
  - rewrite <- app_assoc in EQ. exact (N _ _ _ H EQ).
  - exact (N _ _ _ H EQ).
Qed.
Lemma string_err : forall (c : N) (i : list N), ~ quote c -> string (c :: i) = Err.
Proof.
  intros c i H. assert (H1 : 39 <> c) by (intros <-; apply H; left; reflexivity). assert (H2 : 34 <> c) by (intros <-; apply H; right; reflexivity).
  unfold string, alt, string_literal_long1, string_literal_long2, string_literal1, string_literal2, delimited. rewrite !tag_differs by assumption. reflexivity.
Qed.
Lemma rdf_err : forall (c : N) (i : list N), ~ quote c -> rdf_literal (c :: i) = Err.
Proof. intros c i H. unfold rdf_literal. rewrite string_err by exact H. reflexivity. Qed.
Lemma number_err : forall (c : N) (i : list N), ~ (c = 43 \/ c = 45 \/ c = 46 \/ digit c) -> numeric_literal (c :: i) = Err.
Proof.
  intros c i H. pose proof (reads_number (c :: i)) as K.
  assert (F : soft numeric_literal) by (apply soft_alt; [exact soft_double|apply soft_alt; [exact soft_decimal|exact soft_integer]]).
  specialize (F (c :: i)). destruct (numeric_literal (c :: i)) as [v r| | |]; [|reflexivity|congruence|destruct K].
  destruct K as (w & E & V & _). destruct (number_first w v (proj2 (V v) eq_refl)) as (c' & t & -> & K). cbn in E. injection E as <- _. tauto.
Qed.
Lemma token_err : forall (c d : N) (t i : list N), solid d -> c <> d -> token_tws (c :: t) (d :: i) = Err.
Proof. intros c d t i S H. unfold token_tws. rewrite (tws0_clean _ (solid_clean d i S)). cbn [bind]. rewrite tag_differs by exact H. reflexivity. Qed.
Lemma boolean_err : forall (c : N) (i : list N), solid c -> c <> 116 -> c <> 102 -> boolean (c :: i) = Err.
Proof.
  intros c i S H1 H2. unfold boolean, alt, pmap. rewrite !token_err by (assumption || congruence). reflexivity.
Qed.
Lemma literal_err : forall (c : N) (i : list N), solid c -> ~ quote c -> ~ (c = 43 \/ c = 45 \/ c = 46 \/ digit c) -> c <> 116 -> c <> 102 -> literal (c :: i) = Err.
Proof.
  intros c i S H1 H2 H3 H4. unfold literal, alt, pmap. rewrite (rdf_err _ _ H1), (number_err _ _ H2), (boolean_err _ _ S H3 H4). reflexivity.
Qed.

(** * Words *)

Lemma lower_iff : forall c d, (lower c =? lower d) = true <-> lower c = lower d.
Proof. intros c d. apply N.eqb_eq. Qed.
Lemma same_lower : forall c d, letter c -> (lower c = lower d <-> same_letter c d).
Proof.
  intros c d H. unfold lower, in_range, same_letter, letter in *.
  destruct (N.leb_spec 65 c), (N.leb_spec c 90), (N.leb_spec 65 d), (N.leb_spec d 90); cbn [andb]; lia.
Qed.
Lemma no_case_spec : forall t i, Forall letter t ->
  (exists w r, i = w ++ r /\ spelled t w /\ tag_no_case t i = Ok tt r) \/
  tag_no_case t i = Err /\ forall w r, i = w ++ r -> ~ spelled t w.
Proof.
  induction t as [|c t IH]; intros i F.
  - left. exists [], i. split; [reflexivity|split; [constructor|reflexivity]].
  - inversion F; subst. destruct i as [|d i].
    + right. split; [reflexivity|]. intros w r E Sp. inversion Sp; subst. discriminate.
    + cbn [tag_no_case]. destruct (N.eqb_spec (lower c) (lower d)) as [E|E].
      * apply same_lower in E; [|assumption]. destruct (IH i ltac:(assumption)) as [(w & r & -> & Sp & EQ)|(EQ & K)].
        -- left. exists (d :: w), r. split; [reflexivity|split; [constructor; assumption|exact EQ]].
        -- right. split; [exact EQ|]. intros w r Ew Sp. inversion Sp as [|? ? ? w' Hs Sp']; subst. cbn in Ew. injection Ew as <- Ew. exact (K _ _ Ew Sp').
      * right. split; [reflexivity|]. intros w r Ew Sp. inversion Sp as [|? d' ? w' Hs Sp']; subst. cbn in Ew. injection Ew as <- Ew. apply E, same_lower; assumption.
Qed.
Lemma spelled_len : forall k w, spelled k w -> length k = length w.
Proof. intros k w H. induction H; cbn; congruence. Qed.
Lemma spelled_letters : forall k w, Forall letter k -> spelled k w -> Forall letter w.
Proof.
  intros k w F H. induction H as [|c d k w Hs Sp IH]; [constructor|]. inversion F; subst. constructor; [|apply IH; assumption].
  unfold letter, same_letter in *. lia.
Qed.
Lemma keyword_ok : forall k i r, Forall letter k -> keyword k i r -> tag_no_case k i = Ok tt r.
Proof.
  intros k i r F (w & -> & Sp). destruct (no_case_spec k (w ++ r) F) as [(w' & r' & E & Sp' & EQ)|(_ & K)]; [|destruct (K w r eq_refl Sp)].
  destruct (app_cancel _ _ _ _ E) as (<- & <-); [|exact EQ]. rewrite <- (spelled_len _ _ Sp), <- (spelled_len _ _ Sp'). reflexivity.
Qed.
Lemma letters_start : Forall letter kw_start. Proof. repeat constructor; unfold letter; lia. Qed.
Lemma letters_focus : Forall letter kw_focus. Proof. repeat constructor; unfold letter; lia. Qed.
Lemma letters_sparql : Forall letter kw_sparql. Proof. repeat constructor; unfold letter; lia. Qed.
Lemma solid_letter : forall c, letter c -> solid c.
Proof. intros c H K. unfold letter in H. cbn [In] in K. repeat (destruct K as [<-|K]; [lia|]). destruct K. Qed.
Lemma keyword_first : forall c k i r, Forall letter (c :: k) -> keyword (c :: k) i r -> exists d j, i = d :: j /\ letter d /\ same_letter c d.
Proof.
  intros c k i r F (w & -> & Sp). pose proof (spelled_letters _ _ F Sp) as Fw. inversion Sp as [|? d ? w' Hs Sp']; subst. inversion Fw; subst.
  exists d, (w' ++ r). auto.
Qed.
Lemma keyword_suf : forall k i r, keyword k i r -> suf r i.
Proof. intros k i r (w & -> & _). exists w. reflexivity. Qed.
(** A keyword and the white space behind it. *)
Lemma keyword_read : forall (c : N) (k : list N) i r, Forall letter (c :: k) -> keyword (c :: k) i r ->
  exists r', tag_no_case_tws (c :: k) i = Ok tt r' /\ skip r r' /\ clean r'.
Proof.
  intros c k i r F K. destruct (keyword_first _ _ _ _ F K) as (d & j & E & L & _). destruct (tws0_step r) as (r' & E' & Sk & C).
  exists r'. split; [|split; assumption]. unfold tag_no_case_tws. rewrite tws0_clean; [|rewrite E; apply solid_clean, solid_letter, L].
  cbn [bind]. rewrite (keyword_ok _ _ _ F K). cbn [bind]. exact E'.
Qed.
Lemma keyword_reads : forall k i u r, Forall letter k -> clean i -> tag_no_case_tws k i = Ok u r -> exists j, keyword k i j /\ skip j r /\ clean r.
Proof.
  intros k i u r F C H. unfold tag_no_case_tws in H. rewrite (tws0_clean _ C) in H. cbn [bind] in H.
  destruct (no_case_spec k i F) as [(w & j & E & Sp & EQ)|(EQ & _)]; rewrite EQ in H; cbn [bind] in H; [|discriminate].
  apply tws0_ok in H. destruct H as (H & Cr). exists j. split; [exists w; auto|split; assumption].
Qed.
Lemma token_reads : forall t i u r, token_tws t i = Ok u r -> exists j, skip i (t ++ j) /\ skip j r /\ clean r.
Proof.
  intros t i u r H. unfold token_tws in H. destruct (tws0_step i) as (i' & E & Sk & C). rewrite E in H. cbn [bind] in H.
  destruct (tag_spec t i') as [(j & -> & EQ)|(EQ & _)]; rewrite EQ in H; cbn [bind] in H; [|discriminate].
  apply tws0_ok in H. exists j. tauto.
Qed.
Lemma token_read : forall (c : N) (t i j : list N), solid c -> skip i (c :: t ++ j) -> forall i', skip i i' ->
  exists r, token_tws (c :: t) i' = Ok tt r /\ skip j r /\ clean r.
Proof.
  intros c t i j S Sk i' Sk'. destruct (tws0_step j) as (r & E & K & C). exists r. split; [|split; assumption].
  unfold token_tws. rewrite (tws0_from _ _ _ Sk (solid_clean _ _ S) Sk'). cbn [bind].
  change (c :: t ++ j) with ((c :: t) ++ j). rewrite tag_app. cbn [bind]. exact E.
Qed.
