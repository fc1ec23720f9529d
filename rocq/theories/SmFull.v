(** Sentences are read as what they mean. *)
From Coq Require Import List NArith Arith Bool Lia.
From Verif Require Import LexModel LexSpec LexCore LexLemmas LexNames LexPn LexLocal LexIri LexRest LexPrint SmModel SmSpec SmLemmas SmRead.
Import ListNotations.
Local Open Scope N_scope.

Notation tight := True.

(** * The terminals *)

Lemma iri_full : forall i r x, ~ trouble i -> takes IRI i r x -> iri i = Ok x r.
Proof. intros i r x T (w & L & V). destruct (reads_longest _ _ _ _ _ _ _ _ reads_iri L V); tauto. Qed.
Lemma label_full : forall i r x, ~ trouble i -> takes label_dots i r x -> blank_node_label i = Ok x r.
Proof. intros i r x T (w & L & V). destruct (reads_longest _ _ _ _ _ _ _ _ reads_label L V) as [H|H]; [exact H|]. destruct T. right. exact H. Qed.
Lemma string_full : forall i r x, ~ trouble i -> takes (strings 0) i r x -> string i = Ok x r.
Proof. intros i r x T (w & L & V). destruct (reads_longest _ _ _ _ _ _ _ _ reads_string L V) as [H|H]; [exact H|]. destruct T. left. exact H. Qed.

Lemma takes_first : forall A (L : lang A) (P : char -> Prop) i r v, (forall w v, L w v -> exists c s, w = c :: s /\ P c) -> takes L i r v ->
  exists c s, i = c :: s /\ P c.
Proof. intros A L P i r v H (w & (-> & _) & V). destruct (H _ _ V) as (c & s & -> & K). exists c, (s ++ r). auto. Qed.

Lemma letters_true : Forall letter [116; 114; 117; 101]. Proof. repeat constructor; unfold letter; lia. Qed.
Lemma letters_false : Forall letter [102; 97; 108; 115; 101]. Proof. repeat constructor; unfold letter; lia. Qed.
Lemma quote_not_base : forall c, quote c -> ~ PN_CHARS_BASE c /\ c <> 60 /\ c <> 58 /\ c <> 95 /\ c <> 123.
Proof. intros c H. split; [intros K; apply base_range in K|]; unfold quote in H; lia. Qed.
Lemma number_not_base : forall c, c = 43 \/ c = 45 \/ c = 46 \/ digit c -> ~ PN_CHARS_BASE c /\ c <> 60 /\ c <> 58 /\ c <> 95 /\ c <> 123 /\ ~ quote c.
Proof. intros c H. unfold digit, quote in *. split; [intros K; apply base_range in K|]; lia. Qed.
Lemma letter_not : forall c, letter c -> ~ quote c /\ ~ (c = 43 \/ c = 45 \/ c = 46 \/ digit c) /\ c <> 95 /\ c <> 123 /\ c <> 58 /\ c <> 60.
Proof. intros c H. unfold letter, digit, quote in *. lia. Qed.
Lemma iri_char_not : forall c, c = 60 \/ c = 58 \/ PN_CHARS_BASE c -> c <> 95 /\ c <> 123.
Proof. intros c [->|[->|H]]; [lia|lia|]. apply base_range in H. lia. Qed.

Lemma literal_head : forall i r l, literal_at tight i r l -> ~ trouble i ->
  iri i = Err /\ suf r i /\ exists c s, i = c :: s /\ solid c /\ c <> 95 /\ c <> 123.
Proof.
  intros i r l H T. destruct H as [i r l H|i r s k H|r H|r H].
  - destruct (takes_first _ _ _ _ _ _ lit_first H) as (c & t & -> & Q). destruct (quote_not_base _ Q) as (B & N1 & N2 & N3 & N4).
    split; [apply iri_err; assumption|split; [eapply suf_takes, H|]]. exists c, t. split; [reflexivity|split; [apply solid_quote, Q|auto]].
  - destruct (takes_first _ _ _ _ _ _ number_first H) as (c & t & -> & Q). destruct (number_not_base _ Q) as (B & N1 & N2 & N3 & N4 & _).
    split; [apply iri_err; assumption|split; [eapply suf_takes, H|]]. exists c, t. split; [reflexivity|split; [apply solid_number, Q|auto]].
  - split; [apply iri_word; [discriminate|exact T|exact letters_true|exact (H Logic.I)]|split; [eexists; reflexivity|]].
    exists 116, ([114; 117; 101] ++ r). split; [reflexivity|split; [apply solid_letter; unfold letter; lia|lia]].
  - split; [apply iri_word; [discriminate|exact T|exact letters_false|exact (H Logic.I)]|split; [eexists; reflexivity|]].
    exists 102, ([97; 108; 115; 101] ++ r). split; [reflexivity|split; [apply solid_letter; unfold letter; lia|lia]].
Qed.
Lemma literal_full : forall i r l, literal_at tight i r l -> ~ trouble i -> exists r', literal i = Ok l r' /\ skip r r'.
Proof.
  intros i r l H T. destruct H as [i r l H|i r s k H|r H|r H].
  - exists r. split; [|constructor]. destruct H as (w & L & V). unfold literal, alt. destruct (reads_longest _ _ _ _ _ _ _ _ reads_literal L V) as [E|E]; [|tauto].
    rewrite E. reflexivity.
  - exists r. split; [|constructor]. destruct (takes_first _ _ _ _ _ _ number_first H) as (c & t & E0 & Q). destruct (number_not_base _ Q) as (_ & _ & _ & _ & _ & NQ).
    destruct H as (w & L & V). destruct (reads_longest _ _ _ _ _ _ _ _ reads_number L V) as [E|[]]. unfold literal, alt, pmap. rewrite E0 at 1.
    rewrite (rdf_err _ _ NQ), E. reflexivity.
  - destruct (token_read 116 [114; 117; 101] _ r ltac:(apply solid_letter; unfold letter; lia) (skip_done _) _ (skip_done _)) as (r' & E & Sk & _).
    exists r'. split; [|exact Sk]. change ([116; 114; 117; 101] ++ r) with (116 :: [114; 117; 101] ++ r) in *. unfold literal, alt, boolean, alt, pmap.
    rewrite rdf_err, number_err; [|unfold digit; lia|unfold quote; lia]. rewrite E. reflexivity.
  - destruct (token_read 102 [97; 108; 115; 101] _ r ltac:(apply solid_letter; unfold letter; lia) (skip_done _) _ (skip_done _)) as (r' & E & Sk & _).
    exists r'. split; [|exact Sk]. change ([102; 97; 108; 115; 101] ++ r) with (102 :: [97; 108; 115; 101] ++ r) in *. unfold literal, alt, boolean, alt, pmap.
    rewrite rdf_err, number_err; [|unfold digit; lia|unfold quote; lia]. rewrite token_err; [|apply solid_letter; unfold letter; lia|lia]. rewrite E. reflexivity.
Qed.

(** * Triple patterns *)

Lemma iri_head : forall i r x, takes IRI i r x -> suf r i /\ exists c s, i = c :: s /\ solid c /\ c <> 95 /\ c <> 123.
Proof.
  intros i r x H. split; [eapply suf_takes, H|]. destruct (takes_first _ _ _ _ _ _ iri_first H) as (c & s & -> & K). exists c, s.
  split; [reflexivity|split; [apply solid_iri, K|apply iri_char_not, K]].
Qed.
Lemma object_head : forall i r o, object_at tight i r o -> ~ trouble i -> suf r i /\ clean i.
Proof.
  intros i r o [i0 r0 x H|i0 r0 l H|r0] T.
  - destruct (iri_head _ _ _ H) as (Sf & c & s & -> & S & _). split; [exact Sf|apply solid_clean, S].
  - destruct (literal_head _ _ _ H T) as (_ & Sf & c & s & -> & S & _). split; [exact Sf|apply solid_clean, S].
  - split; [exists [95]; reflexivity|]. apply solid_clean. cbv. intuition discriminate.
Qed.
Lemma object_full : forall i r o, object_at tight i r o -> ~ trouble i -> exists r', node_or_wildcard i = Ok o r' /\ skip r r'.
Proof.
  intros i r o [i0 r0 x H|i0 r0 l H|r0] T; unfold node_or_wildcard, object_value, alt, pmap.
  - exists r0. rewrite (iri_full _ _ _ T H). split; [reflexivity|constructor].
  - destruct (literal_head _ _ _ H T) as (E & _). destruct (literal_full _ _ _ H T) as (r' & E' & Sk). exists r'. rewrite E, E'. auto.
  - assert (S : solid 95) by (cbv; intuition discriminate). destruct (token_read 95 [] _ r0 S (skip_done _) _ (skip_done _)) as (r' & E & Sk & _).
    exists r'. cbn [app] in E. split; [|exact Sk].
    rewrite iri_err; [|exact T|lia|lia|intros B; apply base_range in B; lia].
    rewrite literal_err; [|exact S|unfold quote; lia|unfold digit; lia|lia|lia]. rewrite E. reflexivity.
Qed.
Lemma predicate_head : forall i r p, predicate_at tight i r p -> suf r i /\ clean i.
Proof.
  intros i r p [i0 r0 x H|r0 H].
  - destruct (iri_head _ _ _ H) as (Sf & c & s & -> & S & _). split; [exact Sf|apply solid_clean, S].
  - split; [exists [97]; reflexivity|]. apply solid_clean. cbv. intuition discriminate.
Qed.
Lemma predicate_full : forall i r p, predicate_at tight i r p -> ~ trouble i -> predicate i = Ok p r.
Proof.
  intros i r p [i0 r0 x H|r0 H] T; unfold predicate, alt.
  - rewrite (iri_full _ _ _ T H). reflexivity.
  - assert (E : iri ([97] ++ r0) = Err) by (apply iri_word; [discriminate|exact T|repeat constructor; unfold letter; lia|exact (H Logic.I)]).
    cbn [app] in E. rewrite E. reflexivity.
Qed.
Lemma triple_head : forall i r t, triple_at tight i r t -> ~ trouble i -> suf r i /\ clean i.
Proof.
  intros i r t [i1 i2 i3 i4 i5 r0 p o K Sk1 P Sk2 O|i1 i2 i3 i4 i5 r0 s p N O Sk1 P Sk2 K] T.
  - assert (S2 : suf i2 i1) by exact (keyword_suf _ _ _ K). assert (S3 := suf_trans _ _ _ (suf_skip _ _ Sk1) S2). destruct (predicate_head _ _ _ P) as (S4 & _).
    assert (S5 := suf_trans _ _ _ (suf_skip _ _ Sk2) (suf_trans _ _ _ S4 S3)). destruct (object_head _ _ _ O (suf_ok _ _ S5 T)) as (S6 & _).
    split; [exact (suf_trans _ _ _ S6 S5)|]. destruct (keyword_first _ _ _ _ letters_focus K) as (d & j & -> & L & _). apply solid_clean, solid_letter, L.
  - destruct (object_head _ _ _ O T) as (S2 & C). split; [|exact C]. assert (S3 := suf_trans _ _ _ (suf_skip _ _ Sk1) S2). destruct (predicate_head _ _ _ P) as (S4 & _).
    assert (S5 := suf_trans _ _ _ (suf_skip _ _ Sk2) (suf_trans _ _ _ S4 S3)). exact (suf_trans _ _ _ (keyword_suf _ _ _ K) S5).
Qed.
Lemma triple_full : forall i r t, triple_at tight i r t -> ~ trouble i -> exists r', alt focus_object subject_focus i = Ok t r' /\ skip r r'.
Proof.
  intros i r t [i1 i2 i3 i4 i5 r0 p o K Sk1 P Sk2 O|i1 i2 i3 i4 i5 r0 s p N O Sk1 P Sk2 K] T; unfold alt.
  - assert (S2 : suf i2 i1) by exact (keyword_suf _ _ _ K). assert (S3 := suf_trans _ _ _ (suf_skip _ _ Sk1) S2). destruct (predicate_head _ _ _ P) as (S4 & C3).
    assert (S5 := suf_trans _ _ _ (suf_skip _ _ Sk2) (suf_trans _ _ _ S4 S3)). destruct (object_head _ _ _ O (suf_ok _ _ S5 T)) as (_ & C5).
    destruct (keyword_read _ _ _ _ letters_focus K) as (i2' & E1 & Sk3 & _). destruct (object_full _ _ _ O (suf_ok _ _ S5 T)) as (r' & E5 & Sk5).
    exists r'. split; [|exact Sk5]. unfold focus_object, focus. unfold kw_focus at 1. rewrite E1. cbn [bind]. rewrite (tws0_from _ _ _ Sk1 C3 Sk3). cbn [bind].
    rewrite (predicate_full _ _ _ P (suf_ok _ _ S3 T)). cbn [bind]. rewrite (tws0_to _ _ Sk2 C5). cbn [bind]. rewrite E5. reflexivity.
  - destruct (object_head _ _ _ O T) as (S2 & C). assert (S3 := suf_trans _ _ _ (suf_skip _ _ Sk1) S2). destruct (predicate_head _ _ _ P) as (S4 & C3).
    assert (E0 : focus_object i1 = Err).
    { unfold focus_object, focus, tag_no_case_tws. rewrite (tws0_clean _ C). cbn [bind]. destruct (no_case_spec kw_focus i1 letters_focus) as [(w & z & E & Sp & _)|(E & _)].
      - destruct (N Logic.I _ _ E Sp).
      - rewrite E. reflexivity. }
    rewrite E0. destruct (object_full _ _ _ O T) as (i2' & E1 & Sk3). destruct (keyword_read _ _ _ _ letters_focus K) as (r' & E5 & Sk5 & _).
    exists r'. split; [|exact Sk5]. unfold subject_focus. rewrite E1. cbn [bind]. rewrite (tws0_from _ _ _ Sk1 C3 Sk3). cbn [bind].
    rewrite (predicate_full _ _ _ P (suf_ok _ _ S3 T)). cbn [bind]. rewrite (tws0_to _ _ Sk2). 2:{ destruct (keyword_first _ _ _ _ letters_focus K) as (d & j & -> & L & _). apply solid_clean, solid_letter, L. }
    cbn [bind]. unfold focus, kw_focus. rewrite E5. reflexivity.
Qed.

(** * Selectors *)

(** White space in front of a quote ends a word. *)
Lemma skip_ends : forall i c r, skip i (c :: r) -> quote c -> word_ends i.
Proof.
  assert (Z : forall c, In c [32; 9; 13; 10; 35; 47; 34; 39] -> ~ in_name c).
  { intros c H K. assert (B : c < 65 \/ c = 95) by (cbn [In] in H; lia). unfold in_name, PN_CHARS, PN_CHARS_U, digit in K.
    destruct K as [[[K|K]|K]|K]; [apply base_range in K|..]; cbn [In] in H; lia. }
  intros i c r H Q d j ->. apply Z. inversion H as [|c0 i0 r0 Hc|w i0 r0 F N Sk E2|w i0 r0 F Sk E2]; subst.
  - destruct Q as [->| ->]; cbn; tauto.
  - cbn in *. tauto.
  - cbn. tauto.
  - cbn. tauto.
Qed.
Lemma word_err : forall w r c t, w = c :: t -> Forall letter w -> c <> 116 -> c <> 102 -> word_ends r -> ~ trouble (w ++ r) ->
  blank_node_label (w ++ r) = Err /\ iri (w ++ r) = Err /\ literal (w ++ r) = Err /\ is 123 (w ++ r) = Err.
Proof.
  intros w r c t E F N1 N2 W T. assert (L : letter c) by (rewrite E in F; inversion F; assumption). destruct (letter_not _ L) as (Q & D & N3 & N4 & _).
  split; [subst w; apply label_err, N3|split; [apply iri_word; [rewrite E; discriminate|exact T|exact F|exact W]|]].
  subst w. split; [apply literal_err; [apply solid_letter, L|exact Q|exact D|exact N1|exact N2]|]. apply is_err. congruence.
Qed.
Lemma node_head : forall i r n, node_at tight i r n -> ~ trouble i -> suf r i /\ clean i.
Proof.
  intros i r n [i0 r0 x H|i0 r0 l H|i0 r0 l H|i1 i2 i3 r0 t Sk1 Tr Sk2|i1 i2 i3 r0 q K Sk1 St] T.
  - destruct (iri_head _ _ _ H) as (Sf & c & s & -> & S & _). split; [exact Sf|apply solid_clean, S].
  - split; [eapply suf_takes, H|]. destruct H as (w & (-> & _) & V). destruct (label_first _ _ V) as (t & ->). apply solid_clean. cbv. intuition discriminate.
  - destruct (literal_head _ _ _ H T) as (_ & Sf & c & s & -> & S & _). split; [exact Sf|apply solid_clean, S].
  - split; [|apply solid_clean; cbv; intuition discriminate]. apply suf_cons. assert (S2 := suf_skip _ _ Sk1).
    destruct (triple_head _ _ _ Tr (suf_ok _ _ (suf_cons _ _ _ S2) T)) as (S3 & _). apply (suf_tail _ 125).
    exact (suf_trans _ _ _ (suf_skip _ _ Sk2) (suf_trans _ _ _ S3 S2)).
  - split; [|destruct (keyword_first _ _ _ _ letters_sparql K) as (d & j & -> & L & _); apply solid_clean, solid_letter, L].
    exact (suf_trans _ _ _ (suf_takes _ _ _ _ _ St) (suf_trans _ _ _ (suf_skip _ _ Sk1) (keyword_suf _ _ _ K))).
Qed.
Lemma node_full : forall i r n, node_at tight i r n -> ~ trouble i -> exists r', node_selector i = Ok n r' /\ skip r r'.
Proof.
  intros i r n [i0 r0 x H|i0 r0 l H|i0 r0 l H|i1 i2 i3 r0 t Sk1 Tr Sk2|i1 i2 i3 r0 q K Sk1 St] T; unfold node_selector, object_term, alt, pmap.
  - exists r0. split; [|constructor]. destruct (iri_head _ _ _ H) as (_ & c & s & E & _ & N & _). rewrite E at 1. rewrite (label_err _ _ N), (iri_full _ _ _ T H). reflexivity.
  - exists r0. rewrite (label_full _ _ _ T H). split; [reflexivity|constructor].
  - destruct (literal_head _ _ _ H T) as (E1 & _ & c & s & E & _ & N & _). destruct (literal_full _ _ _ H T) as (r' & E' & Sk). exists r'.
    split; [|exact Sk]. rewrite E at 1. rewrite (label_err _ _ N), E1, E'. reflexivity.
  - assert (S2 := suf_skip _ _ Sk1). assert (T2 := suf_ok _ _ (suf_cons _ 123 _ S2) T). destruct (triple_head _ _ _ Tr T2) as (S3 & C2).
    destruct (triple_full _ _ _ Tr T2) as (r' & E & Sk3). exists r0. split; [|constructor].
    rewrite label_err by lia. rewrite iri_err; [|exact T|lia|lia|intros B; apply base_range in B; lia].
    rewrite literal_err; [|cbv; intuition discriminate|unfold quote; lia|unfold digit; lia|lia|lia].
    unfold triple_pattern. rewrite is_ok. cbn [bind]. rewrite (tws0_to _ _ Sk1 C2). cbn [bind]. rewrite E. cbn [bind].
    rewrite (tws0_from _ _ _ Sk2 ltac:(apply solid_clean; cbv; intuition discriminate) Sk3). cbn [bind]. rewrite is_ok. reflexivity.
  - exists r0. split; [|constructor]. destruct (takes_first _ _ _ _ _ _ string_first St) as (c & s & E3 & Q).
    assert (W : word_ends i2) by (rewrite E3 in Sk1; exact (skip_ends _ _ _ Sk1 Q)).
    assert (T3 : ~ trouble i3) by (eapply suf_ok; [|exact T]; exact (suf_trans _ _ _ (suf_skip _ _ Sk1) (keyword_suf _ _ _ K))).
    destruct (keyword_read _ _ _ _ letters_sparql K) as (i2' & E1 & Sk2 & _).
    pose proof K as (w & Ew & Sp). pose proof (spelled_letters _ _ letters_sparql Sp) as Fw. inversion Sp as [|a d k w' Hs Sp' Ea Ed]; subst a k.
    assert (Nd : d <> 116 /\ d <> 102) by (unfold same_letter in Hs; lia).
    rewrite Ew in T. destruct (word_err w i2 d w' (eq_sym Ed) Fw (proj1 Nd) (proj2 Nd) W T) as (R1 & R2 & R3 & R4). rewrite <- Ew in R1, R2, R3, R4.
    rewrite R1, R2, R3. unfold triple_pattern. rewrite R4. cbn [bind]. unfold extended. unfold kw_sparql. rewrite E1. cbn [bind].
    rewrite (tws0_from _ _ _ Sk1 ltac:(rewrite E3; apply solid_clean, solid_quote, Q) Sk2). cbn [bind]. unfold pmap. rewrite (string_full _ _ _ T3 St). reflexivity.
Qed.
Lemma shape_head : forall i r s, shape_at tight i r s -> suf r i /\ clean i.
Proof.
  intros i r s [i0 r0 x H|i0 r0 l H|i0 r0 K H].
  - destruct (iri_head _ _ _ H) as (Sf & c & t & -> & S & _). split; [exact Sf|apply solid_clean, S].
  - split; [eapply suf_takes, H|]. destruct H as (w & (-> & _) & V). destruct (label_first _ _ V) as (t & ->). apply solid_clean. cbv. intuition discriminate.
  - split; [exact (keyword_suf _ _ _ K)|]. destruct (keyword_first _ _ _ _ letters_start K) as (d & j & -> & L & _); apply solid_clean, solid_letter, L.
Qed.
Lemma shape_full : forall i r s, shape_at tight i r s -> ~ trouble i -> exists r', shape_spec i = Ok s r' /\ skip r r'.
Proof.
  intros i r s [i0 r0 x H|i0 r0 l H|i0 r0 K H] T; unfold shape_spec, shape_expr_label, alt, pmap.
  - exists r0. rewrite (iri_full _ _ _ T H). split; [reflexivity|constructor].
  - exists r0. rewrite (label_full _ _ _ T H). split; [|constructor]. destruct H as (w & (Ei & _) & V). destruct (label_first _ _ V) as (t & ->). subst i0. cbn [app] in *.
    rewrite iri_err; [reflexivity|exact T|lia|lia|intros B; apply base_range in B; lia].
  - destruct (keyword_read _ _ _ _ letters_start K) as (r' & E1 & Sk & _). exists r'. split; [|exact Sk].
    pose proof K as (w & Ew & Sp). pose proof (spelled_letters _ _ letters_start Sp) as Fw. inversion Sp as [|a d k w' Hs Sp' Ea Ed]; subst a k.
    assert (Nd : d <> 116 /\ d <> 102) by (unfold same_letter in Hs; lia).
    rewrite Ew in T. destruct (word_err w r0 d w' (eq_sym Ed) Fw (proj1 Nd) (proj2 Nd) (H Logic.I) T) as (R1 & R2 & _). rewrite <- Ew in R1, R2.
    rewrite R1, R2. unfold kw_start. rewrite E1. reflexivity.
Qed.
Lemma pair_head : forall i r a, pair_at tight i r a -> ~ trouble i -> suf r i /\ clean i.
Proof.
  intros i r a [i1 i2 i3 i4 r0 n s N Sk1 Sk2 Sh] T. destruct (node_head _ _ _ N T) as (S1 & C). split; [|exact C].
  assert (S3 := suf_tail _ _ _ (suf_trans _ _ _ (suf_skip _ _ Sk1) S1)). destruct (shape_head _ _ _ Sh) as (S4 & _).
  exact (suf_trans _ _ _ S4 (suf_trans _ _ _ (suf_skip _ _ Sk2) S3)).
Qed.
Lemma pair_full : forall i r a, pair_at tight i r a -> ~ trouble i -> exists r', association i = Ok a r' /\ skip r r'.
Proof.
  intros i r a [i1 i2 i3 i4 r0 n s N Sk1 Sk2 Sh] T. destruct (node_head _ _ _ N T) as (S1 & _). destruct (node_full _ _ _ N T) as (i2' & E1 & Sk3).
  assert (S3 := suf_tail _ _ _ (suf_trans _ _ _ (suf_skip _ _ Sk1) S1)). destruct (shape_head _ _ _ Sh) as (_ & C4).
  destruct (token_read 64 [] i2 i3 ltac:(cbv; intuition discriminate) Sk1 _ Sk3) as (i4' & E2 & Sk4 & C4').
  assert (E : i4' = i4) by exact (skipped_one _ _ _ (conj Sk4 C4') (conj Sk2 C4)). subst i4'.
  destruct (shape_full _ _ _ Sh (suf_ok _ _ (suf_trans _ _ _ (suf_skip _ _ Sk2) S3) T)) as (r' & E3 & Sk5).
  exists r'. split; [|exact Sk5]. unfold association. rewrite E1. cbn [bind]. rewrite E2. cbn [bind]. unfold pmap. rewrite E3. reflexivity.
Qed.

(** * Maps *)

Lemma association_nil : association [] = Err. Proof. reflexivity. Qed.
Definition closing (r : str) : Prop := skip r [] \/ exists r', skip r (44 :: r') /\ skip r' [].
Lemma closing_next : forall r r', closing r -> skip r r' -> next_association r' = Err.
Proof.
  intros r r' [H|(x & H & H')] Sk; unfold next_association.
  - unfold token_tws. rewrite (tws0_from _ _ _ H clean_nil Sk). reflexivity.
  - destruct (token_read 44 [] r x ltac:(cbv; intuition discriminate) H _ Sk) as (z & E & Sk2 & Cz). rewrite E. cbn [bind].
    assert (Ez : z = []) by exact (skipped_one _ _ _ (conj Sk2 Cz) (conj H' clean_nil)). subst z. reflexivity.
Qed.
Lemma many_full : forall l i r, tail_at tight i r l -> closing r -> ~ trouble i -> forall i' n, skip i i' -> (length i' < n)%nat ->
  exists r', many n next_association i' = Ok l r' /\ skip r r'.
Proof.
  intros l. induction l as [|a l IH]; intros i r H Cl T i' n Sk Ln; inversion H as [|i1 i2 i3 i4 r0 a0 l0 Sk1 Sk2 P Ta]; subst; (destruct n as [|n]; [lia|]); cbn [many].
  - rewrite (closing_next _ _ Cl Sk). exists i'. auto.
  - assert (S2 : suf i2 i) by exact (suf_tail _ _ _ (suf_skip _ _ Sk1)). assert (S3 := suf_trans _ _ _ (suf_skip _ _ Sk2) S2).
    destruct (pair_head _ _ _ P (suf_ok _ _ S3 T)) as (S4 & C3). destruct (pair_full _ _ _ P (suf_ok _ _ S3 T)) as (i4' & E & Sk4).
    destruct (token_read 44 [] i i2 ltac:(cbv; intuition discriminate) Sk1 _ Sk) as (z & Ez & Sz & Cz).
    assert (Z : z = i3) by exact (skipped_one _ _ _ (conj Sz Cz) (conj Sk2 C3)). subst z.
    assert (EN : next_association i' = Ok a i4'). { unfold next_association. rewrite Ez. cbn [bind]. rewrite (tws0_clean _ C3). cbn [bind]. exact E. }
    rewrite EN. assert (L4 : (length i4' < length i')%nat).
    { pose proof (suf_len _ _ (suf_skip _ _ Sk4)). pose proof (suf_len _ _ S4). pose proof (suf_len _ _ (suf_skip _ _ Sk2)).
      assert (K : skip i' (44 :: i2)). { apply (skip_join _ _ Sk _ Sk1). apply solid_clean. cbv. intuition discriminate. }
      pose proof (suf_len _ _ (suf_skip _ _ K)) as L0. cbn [length] in L0. lia. }
    rewrite (proj2 (Nat.eqb_neq (length i4') (length i')) ltac:(lia)). destruct (IH _ _ Ta Cl (suf_ok _ _ (suf_trans _ _ _ S4 S3) T) i4' n Sk4 ltac:(lia)) as (r' & E' & Sk').
    exists r'. split; [|exact Sk']. unfold pmap. rewrite E'. reflexivity.
Qed.
Theorem statements_full : forall t l, sentence tight t l -> ~ trouble t -> statements t = Done l.
Proof.
  intros t l (i & r & Sk & Ps & Cl) T. destruct (pairs_tail _ _ _ _ Ps) as (a & l' & j & -> & P & Ta).
  assert (T1 := suf_ok _ _ (suf_skip _ _ Sk) T). destruct (pair_head _ _ _ P T1) as (S1 & C). destruct (pair_full _ _ _ P T1) as (j' & E & Skj).
  unfold statements. rewrite (tws0_to _ _ Sk C). cbn [bind]. unfold shapemap_statement. rewrite E. cbn [bind].
  destruct (tws0_step j') as (j2 & E2 & Sk2 & _). rewrite E2. cbn [bind]. unfold rest_associations, many0.
  destruct (many_full _ _ _ Ta Cl (suf_ok _ _ S1 T1) j2 (S (length j2)) (skip_trans _ _ _ Skj Sk2) ltac:(lia)) as (r' & E3 & Sk3). rewrite E3. cbn [bind].
  destruct Cl as [Cl|(x & Cl & Cx)].
  - rewrite (tws0_from _ _ _ Cl clean_nil Sk3). reflexivity.
  - rewrite (tws0_from _ _ _ Cl ltac:(apply solid_clean; cbv; intuition discriminate) Sk3). cbn [bind]. unfold popt. rewrite is_ok. cbn [bind].
    rewrite (tws0_to _ _ Cx clean_nil). reflexivity.
Qed.
