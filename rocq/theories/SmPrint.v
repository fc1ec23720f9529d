(** Panics, names, and what is read of what is written. *)
From Coq Require Import List NArith Arith Bool Lia.
From Verif Require Import LexModel LexSpec LexCore LexLemmas LexNames LexPn LexLocal LexIri LexRest LexPrint SmModel SmSpec SmLemmas SmRead SmFull.
Import ListNotations.
Local Open Scope N_scope.

(** * Panics come from the terminals *)

Definition calm {A} (p : parser A) : Prop := forall i, match p i with Ok _ r => suf r i | Panic => trouble i | _ => True end.
Lemma calm_reads : forall A bad (p : parser A) L, reads bad p L -> (forall i, bad i -> trouble i) -> calm p.
Proof. intros A bad p L R B i. specialize (R i). destruct (p i); auto. destruct R as (w & E & _). exists w. exact E. Qed.
Lemma calm_bind : forall A B (p : parser A) (k : A -> parser B), calm p -> (forall a, calm (k a)) -> calm (fun i => bind (p i) k).
Proof.
  intros A B p k P K i. specialize (P i). destruct (p i) as [a r| | |]; cbn [bind]; auto. specialize (K a r). destruct (k a r); auto.
  - exact (suf_trans _ _ _ K P).
  - destruct P as (x & ->). apply trouble_on, K.
Qed.
Lemma calm_alt : forall A (p q : parser A), calm p -> calm q -> calm (alt p q).
Proof. intros A p q P Q i. specialize (P i). specialize (Q i). unfold alt. destruct (p i); auto. Qed.
Lemma calm_pmap : forall A B (f : A -> B) p, calm p -> calm (pmap f p).
Proof. intros A B f p P i. specialize (P i). unfold pmap. destruct (p i); auto. Qed.
Lemma calm_popt : forall A (p : parser A), calm p -> calm (popt p).
Proof. intros A p P i. specialize (P i). unfold popt. destruct (p i); auto. apply suf_refl. Qed.
Lemma calm_many : forall A (p : parser A), calm p -> calm (many0 p).
Proof.
  intros A p P i. unfold many0. generalize (S (length i)) as n. intros n. revert i. induction n as [|n IH]; intros i; cbn [many]; auto.
  pose proof (P i) as Pi. destruct (p i) as [v r| | |]; auto; [|apply suf_refl]. destruct (Nat.eqb (length r) (length i)); auto.
  specialize (IH r). unfold pmap. destruct (many n p r); auto.
  - exact (suf_trans _ _ _ IH Pi).
  - destruct Pi as (x & ->). apply trouble_on, IH.
Qed.
Lemma calm_satisfy : forall f, calm (satisfy f).
Proof. intros f [|c i]; cbn; auto. destruct (f c); auto. exists [c]. reflexivity. Qed.
Lemma calm_tag : forall t, calm (tag t).
Proof. intros t i. destruct (tag_spec t i) as [(r & -> & E)|(E & _)]; rewrite E; auto. exists t. reflexivity. Qed.
Lemma calm_tws0 : calm tws0.
Proof. intros i. destruct (tws0_step i) as (r & E & Sk & _). rewrite E. apply suf_skip, Sk. Qed.
Lemma calm_token : forall t, calm (token_tws t).
Proof. intros t. apply calm_bind; [exact calm_tws0|intros _]. apply calm_bind; [apply calm_tag|intros _; exact calm_tws0]. Qed.
Lemma calm_no_case : forall t, calm (tag_no_case t).
Proof.
  induction t as [|c t IH]; intros i; cbn [tag_no_case]; [apply suf_refl|]. destruct i as [|d i]; auto. destruct (lower c =? lower d); auto.
  specialize (IH i). destruct (tag_no_case t i); auto; [apply suf_cons, IH|]. apply (trouble_on [d]), IH.
Qed.
Lemma calm_word : forall t, calm (tag_no_case_tws t).
Proof. intros t. apply calm_bind; [exact calm_tws0|intros _]. apply calm_bind; [apply calm_no_case|intros _; exact calm_tws0]. Qed.
Lemma calm_ok : forall A (f : str -> A), calm (fun r => Ok (f r) r).
Proof. intros A f i. apply suf_refl. Qed.
Lemma calm_iri : calm iri.
Proof. eapply calm_reads; [exact reads_iri|auto]. Qed.
Lemma calm_label : calm blank_node_label.
Proof. eapply calm_reads; [exact reads_label|]. intros i H. right. exact H. Qed.
Lemma calm_string : calm string.
Proof. eapply calm_reads; [exact reads_string|]. intros i H. left. exact H. Qed.
Lemma calm_literal : calm literal.
Proof.
  apply calm_alt; [eapply calm_reads; [exact reads_literal|auto]|]. apply calm_alt.
  - apply calm_pmap. eapply calm_reads; [exact reads_number|intros i []].
  - apply calm_alt; apply calm_pmap, calm_token.
Qed.
Lemma calm_object : calm node_or_wildcard.
Proof.
  apply calm_alt; apply calm_pmap; [|apply calm_token]. apply calm_alt; apply calm_pmap; [exact calm_iri|exact calm_literal].
Qed.
Lemma calm_predicate : calm predicate.
Proof. apply calm_alt; [exact calm_iri|]. apply calm_pmap, calm_tag. Qed.
Lemma calm_triple : calm (alt focus_object subject_focus).
Proof.
  apply calm_alt.
  - apply calm_bind; [apply calm_word|intros _]. apply calm_bind; [exact calm_tws0|intros _]. apply calm_bind; [exact calm_predicate|intros p].
    apply calm_bind; [exact calm_tws0|intros _]. apply calm_bind; [exact calm_object|intros o]. exact (calm_ok _ (fun _ => _)).
  - apply calm_bind; [exact calm_object|intros s]. apply calm_bind; [exact calm_tws0|intros _]. apply calm_bind; [exact calm_predicate|intros p].
    apply calm_bind; [exact calm_tws0|intros _]. apply calm_bind; [apply calm_word|intros _]. exact (calm_ok _ (fun _ => _)).
Qed.
Lemma calm_node : calm node_selector.
Proof.
  apply calm_alt; [apply calm_alt; [apply calm_alt|]|apply calm_alt].
  - apply calm_pmap, calm_label.
  - apply calm_pmap, calm_iri.
  - apply calm_pmap, calm_literal.
  - apply calm_bind; [apply calm_satisfy|intros _]. apply calm_bind; [exact calm_tws0|intros _]. apply calm_bind; [exact calm_triple|intros t].
    apply calm_bind; [exact calm_tws0|intros _]. apply calm_bind; [apply calm_satisfy|intros _]. exact (calm_ok _ (fun _ => _)).
  - apply calm_bind; [apply calm_word|intros _]. apply calm_bind; [exact calm_tws0|intros _]. apply calm_pmap, calm_string.
Qed.
Lemma calm_shape : calm shape_spec.
Proof.
  apply calm_alt; apply calm_pmap; [|apply calm_word]. apply calm_alt; apply calm_pmap; [exact calm_iri|exact calm_label].
Qed.
Lemma calm_pair : calm association.
Proof. apply calm_bind; [exact calm_node|intros n]. apply calm_bind; [apply calm_token|intros _]. apply calm_pmap, calm_shape. Qed.
Theorem statements_calm : forall t, statements t = Panics -> trouble t.
Proof.
  assert (C : calm (fun t => bind (tws0 t) (fun _ => shapemap_statement))).
  { apply calm_bind; [exact calm_tws0|intros _]. apply calm_bind; [exact calm_pair|intros a]. apply calm_bind; [exact calm_tws0|intros _].
    apply calm_bind; [apply calm_many; apply calm_bind; [apply calm_token|intros _]; apply calm_bind; [exact calm_tws0|intros _; exact calm_pair]|intros l].
    apply calm_bind; [exact calm_tws0|intros _]. apply calm_bind; [apply calm_popt, calm_satisfy|intros _]. apply calm_bind; [exact calm_tws0|intros _].
    intros [|c r]; [apply suf_refl|exact Logic.I]. }
  intros t H. specialize (C t). unfold statements in H. destruct (bind (tws0 t) (fun _ => shapemap_statement)); try discriminate. exact C.
Qed.

(** * Names *)

Section Names.
  Variables nodes shapes : iri_ -> option str.
  Variables fn fs : iri_ -> str.
  Lemma r_iri_some : forall f g x, f x = Some (g x) -> r_iri f x = Some (Iri (g x)).
  Proof. intros f g x H. unfold r_iri. rewrite H. reflexivity. Qed.
  Lemma r_lit_some : forall l, (forall x, In x (lit_names l) -> nodes x = Some (fn x)) -> r_lit nodes l = Some (n_lit fn l).
  Proof. intros [s|s t|s d|s k|b] H; try reflexivity. cbn. rewrite (r_iri_some _ fn); [reflexivity|]. apply H. cbn. auto. Qed.
  Lemma r_value_some : forall v, (forall x, In x (value_names v) -> nodes x = Some (fn x)) -> r_value nodes v = Some (n_value fn v).
  Proof. intros [x|l] H; cbn; [rewrite (r_iri_some _ fn); [reflexivity|apply H; cbn; auto]|]. rewrite (r_lit_some _ H). reflexivity. Qed.
  Lemma r_pat_some : forall p, (forall x, In x (pat_names p) -> nodes x = Some (fn x)) -> r_pat nodes p = Some (n_pat fn p).
  Proof. intros [v| |] H; try reflexivity. cbn. rewrite (r_value_some _ H). reflexivity. Qed.
  Lemma r_sel_some : forall n, (forall x, In x (node_names n) -> nodes x = Some (fn x)) -> r_selector nodes n = Some (n_sel fn n).
  Proof.
    intros [v|l|s p o|q] H; try reflexivity; cbn [r_selector n_sel].
    - rewrite (r_value_some _ H). reflexivity.
    - cbn [node_names] in H. rewrite r_pat_some by (intros x I; apply H, in_or_app; auto).
      rewrite (r_iri_some _ fn) by (apply H, in_or_app; right; left; reflexivity).
      rewrite r_pat_some by (intros x I; apply H, in_or_app; right; right; exact I). reflexivity.
  Qed.
  Lemma r_shape_some : forall s, (forall x, In x (shape_names s) -> shapes x = Some (fs x)) -> r_shape shapes s = Some (n_shape fs s).
  Proof. intros [[x|l]|] H; try reflexivity. cbn. rewrite (r_iri_some _ fs); [reflexivity|]. apply H. cbn. auto. Qed.
  Lemma r_all_some : forall m, (forall n s, In (n, s) m -> (forall x, In x (node_names n) -> nodes x = Some (fn x)) /\ (forall x, In x (shape_names s) -> shapes x = Some (fs x))) ->
    r_all nodes shapes m = Some (renamed fn fs m).
  Proof.
    induction m as [|(n & s) m IH]; intros H; [reflexivity|]. cbn [r_all]. unfold r_assoc. cbn [fst snd]. destruct (H n s (or_introl eq_refl)) as (H1 & H2).
    rewrite (r_sel_some _ H1), (r_shape_some _ H2), IH; [reflexivity|]. intros n' s' I. apply H. right. exact I.
  Qed.
  Lemma r_iri_none : forall f x y, r_iri f x = Some y -> exists s, f x = Some s.
  Proof. intros f x y H. unfold r_iri in H. destruct (f x); [eauto|discriminate]. Qed.
  Lemma r_value_known : forall v v', r_value nodes v = Some v' -> known nodes (value_names v).
  Proof.
    intros [x|[s|s t|s d|s k|b]] v' H y I; cbn in *; try tauto; (destruct I as [<-|[]]).
    - destruct (r_iri nodes x) eqn:E; [|discriminate]. eapply r_iri_none, E.
    - destruct (r_iri nodes d) eqn:E; [|discriminate]. eapply r_iri_none, E.
  Qed.
  Lemma r_pat_known : forall p p', r_pat nodes p = Some p' -> known nodes (pat_names p).
  Proof.
    intros [v| |] p' H; cbn in *; try (intros x []). destruct (r_value nodes v) eqn:E; [|discriminate]. eapply r_value_known, E.
  Qed.
  Lemma r_all_known : forall m m', r_all nodes shapes m = Some m' -> all_known nodes shapes m.
  Proof.
    induction m as [|(n & s) m IH]; intros m' H; [intros n s []|]. cbn [r_all] in H. unfold r_assoc in H. cbn [fst snd] in H.
    destruct (r_selector nodes n) eqn:En; [|discriminate]. destruct (r_shape shapes s) eqn:Es; [|discriminate]. destruct (r_all nodes shapes m) eqn:Em; [|discriminate].
    intros n' s' [E|I]; [|exact (IH _ eq_refl _ _ I)]. injection E as <- <-. split.
    - destruct n as [v|lb|a p o|qq]; cbn [r_selector node_names] in *; try (intros x []).
      + destruct (r_value nodes v) eqn:E; [|discriminate]. eapply r_value_known, E.
      + destruct (r_pat nodes a) eqn:Ea; [|discriminate]. destruct (r_iri nodes p) eqn:Ep; [|discriminate]. destruct (r_pat nodes o) eqn:Eo; [|discriminate].
        intros x I. apply in_app_or in I. destruct I as [I|[<-|I]]; [exact (r_pat_known _ _ Ea x I)|eapply r_iri_none, Ep|exact (r_pat_known _ _ Eo x I)].
    - destruct s as [[x|lb]|]; cbn [r_shape shape_names] in *; [|intros x0 []..]. destruct (r_iri shapes x) eqn:E; [|discriminate].
      intros y [<-|[]]. eapply r_iri_none, E.
  Qed.
End Names.
Definition some (f : iri_ -> option str) (x : iri_) : str := match f x with Some s => s | None => [] end.
Lemma known_some : forall f l x, known f l -> In x l -> f x = Some (some f x).
Proof. intros f l x K I. destruct (K x I) as (s & E). unfold some. rewrite E. reflexivity. Qed.
Lemma all_known_some : forall nodes shapes m, all_known nodes shapes m -> r_all nodes shapes m = Some (renamed (some nodes) (some shapes) m).
Proof. intros nodes shapes m K. apply r_all_some. intros n s I. destruct (K n s I) as (K1 & K2). split; intros x H; eapply known_some; eassumption. Qed.

(** * What follows a printed terminal *)

Definition ends (r : str) : Prop := forall c s, r = c :: s -> In c [64; 32; 10].
Lemma star_max : forall A (L : lang A), prefix_free L -> proper L -> forall w vs, star L w vs -> forall w' vs' r r', w ++ r = w' ++ r' -> star L w' vs' ->
  (forall u t v, r = u ++ t -> ~ L u v) -> (length w' <= length w)%nat.
Proof.
  intros A L PF PR w vs St. induction St as [|w v ws vs Hw St IH]; intros w' vs' r r' E St' N.
  - destruct St' as [|u v us vs2 Hu St']; [lia|]. cbn in E. rewrite <- app_assoc in E. destruct (N _ _ _ E Hu).
  - destruct St' as [|u v2 us vs2 Hu St']; [cbn; lia|]. rewrite <- !app_assoc in E. destruct (PF _ _ _ _ _ _ E Hw Hu) as (<- & _).
    apply app_inv_head in E. rewrite !app_length. specialize (IH _ _ _ _ E St' N). lia.
Qed.
Lemma free_iriref : prefix_free IRIREF.
Proof.
  apply free_between.
  - apply free_either; [|exact free_uchar|].
    + intros w1 r1 w2 r2 v1 v2 E (-> & _) (-> & _). cbn in E. injection E as -> _. auto.
    + intros w1 r1 w2 r2 v1 v2 E (-> & _ & H) ((ds & _ & [(-> & _)|(-> & _)]) & _); cbn in E; injection E as -> _; apply H; cbn; tauto.
  - intros w v r r' [(-> & H & N)|((ds & _ & [(-> & _)|(-> & _)]) & _)] E; cbn in E; injection E as E _; [subst v; apply N; cbn; tauto|discriminate..].
Qed.
Lemma free_piece : prefix_free (piece keep (dot_or LOCAL_CHAR)).
Proof. eapply free_scan, scan_piece. Qed.
Lemma local_star : forall w v, local_dots keep w v -> exists vs, star (piece keep (dot_or LOCAL_CHAR)) w vs.
Proof.
  intros w v (w1 & w2 & a & b & -> & _ & H1 & H2). exists (a :: b). constructor; [|exact H2]. eapply piece_wider; [|exact H1].
  intros c [U|[->|D]]; right; [left; left; exact U|right; reflexivity|left; right; right; left; exact D].
Qed.
Lemma ends_piece : forall r, ends r -> forall u t v, r = u ++ t -> ~ piece keep (dot_or LOCAL_CHAR) u v.
Proof.
  intros r H u t v E P. assert (K : exists c s, u = c :: s /\ (dot_or LOCAL_CHAR c \/ c = 37 \/ c = 92)).
  { destruct P as [(c & -> & _ & Pc)|[(_ & a & b & d & e & -> & _)|(c & -> & _)]]; eauto 10. }
  destruct K as (c & s & -> & K). cbn in E. specialize (H _ _ E). unfold dot_or, LOCAL_CHAR, PN_CHARS, PN_CHARS_U, digit in K.
  assert (B : c < 65) by (cbn [In] in H; lia).
  destruct K as [[K|[[[K|K]|K]|K]]|K]; [..|]; try (apply base_range in K); cbn [In] in H; lia.
Qed.
Lemma takes_iri : forall w r y, IRI w y -> ends r -> takes IRI (w ++ r) r y.
Proof.
  intros w r y H K. exists w. split; [|exact H]. split; [reflexivity|]. intros w' r' v' E H'.
  assert (F : forall u a, IRIREF u a -> exists t, u = 60 :: t) by (intros u a (m & -> & _); cbn; eauto).
  assert (PX : forall u x, prefixed single_dots (local_dots keep) u x -> exists c s, u = c :: s /\ c <> 60) by exact prefixed_first.
  destruct H as [(s & _ & H)|H], H' as [(s' & _ & H')|H'].
  - destruct (free_iriref _ _ _ _ _ _ E H H') as (-> & _). lia.
  - destruct (F _ _ H) as (t & ->). destruct (PX _ _ H') as (c & s0 & -> & N). cbn in E. injection E as E _. congruence.
  - destruct (F _ _ H') as (t & ->). destruct (PX _ _ H) as (c & s0 & -> & N). cbn in E. injection E as E _. congruence.
  - destruct H as [(a & b & p & l & -> & _ & Ha & Hb)|(p & _ & Ha)], H' as [(a' & b' & p' & l' & -> & _ & Ha' & Hb')|(p' & _ & Ha')].
    + rewrite <- !app_assoc in E. destruct (free_ns _ _ _ _ _ _ E Ha Ha') as (<- & _). apply app_inv_head in E. rewrite !app_length.
      destruct (local_star _ _ Hb) as (vs & St). destruct (local_star _ _ Hb') as (vs' & St').
      pose proof (star_max _ _ free_piece (piece_proper _) _ _ St _ _ _ _ E St' (ends_piece _ K)). lia.
    + rewrite <- !app_assoc in E. destruct (free_ns _ _ _ _ _ _ E Ha Ha') as (<- & _). rewrite app_length. lia.
    + rewrite <- !app_assoc in E. destruct (free_ns _ _ _ _ _ _ E Ha Ha') as (<- & _). apply app_inv_head in E.
      destruct (local_star _ _ Hb') as (vs' & St'). destruct St' as [|u v us vs2 Hu St']; [rewrite app_length; cbn; lia|].
      rewrite <- app_assoc in E. destruct (ends_piece _ K _ _ _ E Hu).
    + destruct (free_ns _ _ _ _ _ _ E Ha Ha') as (<- & _). lia.
Qed.
Lemma takes_run : forall A (L : lang A) (P : char -> Prop) w r v, (forall w v, L w v -> Forall P w) -> (forall c, In c [64; 32; 10] -> ~ P c) ->
  L w v -> ends r -> takes L (w ++ r) r v.
Proof.
  intros A L P w r v F N H K. exists w. split; [|exact H]. split; [reflexivity|]. intros w' r' v' E H'.
  apply (run_longest P w r w' r' E (F _ _ H')). intros c s Er. apply N. exact (K _ _ Er).
Qed.
Definition number_char (c : char) : Prop := is_sign c \/ digit c \/ c = 46 \/ c = 101 \/ c = 69.
Lemma number_chars : forall w x, NUMBER w x -> Forall number_char w.
Proof.
  assert (D : forall d, Forall digit d -> Forall number_char d) by (intros d H; eapply Forall_impl; [|exact H]; intros c Hc; right; left; exact Hc).
  assert (Z : forall s, signs s -> Forall number_char s) by (intros s [->|[->| ->]]; constructor; [left; unfold is_sign; auto|constructor|left; unfold is_sign; auto|constructor]).
  assert (X : forall e, EXPONENT e -> Forall number_char e).
  { intros e (c & s & d & -> & Hc & Hs & _ & Hd). apply Forall_app. split; [constructor; [unfold number_char; tauto|constructor]|]. apply Forall_app. split; [apply Z, Hs|apply D, Hd]. }
  assert (O : Forall number_char [46]) by (constructor; [unfold number_char; tauto|constructor]).
  intros w (s0 & k) (_ & H). cbn [snd] in H. destruct k.
  - destruct H as (s & d & -> & Hs & _ & Hd). apply Forall_app. auto.
  - destruct H as (s & d & f & -> & Hs & Hd & _ & Hf). repeat (apply Forall_app; split); auto.
  - destruct H as (s & m & e & -> & Hs & He & H). repeat (apply Forall_app; split); auto.
    destruct H as [(d & f & -> & (_ & Hd) & Hf)|[(_ & Hm)|(d & -> & _ & Hd)]]; repeat (apply Forall_app; split); auto.
Qed.
Lemma takes_number : forall w r x, NUMBER w x -> ends r -> takes NUMBER (w ++ r) r x.
Proof.
  intros w r x H K. eapply takes_run; [exact number_chars| |exact H|exact K]. intros c I N. unfold number_char, is_sign, digit in N. cbn [In] in I. lia.
Qed.
Definition label_char (c : char) : Prop := c = 58 \/ dot_or PN_CHARS c.
Lemma takes_label : forall l r, label_dots ([95; 58] ++ l) l -> ends r -> takes label_dots ([95; 58] ++ l ++ r) r l.
Proof.
  intros l r H K. rewrite app_assoc. eapply (takes_run _ _ label_char); [| |exact H|exact K].
  - intros w v (-> & c & s & -> & Hc & Hs). assert (U : PN_CHARS 95) by (left; right; reflexivity). assert (C : PN_CHARS c).
    { destruct Hc as [Hc|Hc]; [left; exact Hc|right; right; left; exact Hc]. }
    constructor; [right; right; exact U|constructor; [left; reflexivity|constructor; [right; right; exact C|]]]. eapply Forall_impl; [|exact Hs]. intros a Ha. right. exact Ha.
  - intros c I N. assert (B : c < 65) by (cbn [In] in I; lia). unfold label_char, dot_or, PN_CHARS, PN_CHARS_U, digit in N.
    destruct N as [N|[N|[[N|N]|N]]]; try (apply base_range in N); cbn [In] in I; lia.
Qed.
Lemma takes_string : forall s r, Forall (fun c => ~ In c [34; 92; 10; 13]) s -> takes LIT (pp_string s ++ 32 :: r) (32 :: r) (Plain s).
Proof.
  intros s r H. assert (E : rdf_literal (pp_string s ++ 32 :: r) = Ok (Plain s) (32 :: r)).
  { unfold rdf_literal. rewrite (proj2 (prints_string s (32 :: r) ltac:(discriminate)) H). cbn [bind]. reflexivity. }
  destruct (reads_ok _ _ _ _ _ _ _ reads_literal E) as (w & L & V). exists w. auto.
Qed.
Lemma takes_query : forall q r, Forall (fun c => ~ In c [39; 92]) q -> takes (strings 0) ([39; 39; 39] ++ q ++ [39; 39; 39] ++ r) r q.
Proof.
  intros q r H. apply string_takes. unfold string, alt, string_literal_long1, delimited. rewrite tag_app. cbn [bind]. unfold cut.
  rewrite (many0_plain (string_char [39; 92]) (fun c => ~ In c [39; 92])).
  - cbn [bind]. rewrite tag_app. reflexivity.
  - intros c x Hc. unfold string_char, alt. rewrite none_of_ok by exact Hc. reflexivity.
  - exact H.
  - reflexivity.
Qed.

(** * Printed pairs *)

Lemma spelled_refl : forall k, spelled k k.
Proof. induction k; constructor; [left; reflexivity|exact IHk]. Qed.
Lemma keyword_here : forall k r, keyword k (k ++ r) r.
Proof. intros k r. exists k. split; [reflexivity|apply spelled_refl]. Qed.
Lemma not_focus : forall c i, c <> 70 -> c <> 102 -> forall w r, c :: i = w ++ r -> ~ spelled kw_focus w.
Proof.
  intros c i N1 N2 w r E Sp. inversion Sp as [|a d k w' Hs Sp']; subst. cbn in E. injection E as <- _. unfold same_letter in Hs. lia.
Qed.
Lemma ends_cons : forall c r, In c [64; 32; 10] -> ends (c :: r).
Proof. intros c r H d s E. injection E as <- _. exact H. Qed.
Lemma space : forall r, skip (32 :: r) r.
Proof. intros r. apply skip_space; [cbn; tauto|constructor]. Qed.

Section Printed.
  Variables nodes shapes : iri_ -> option str.
  Variables node_name shape_name : str -> str.
  Variable show : str * numeric -> str.

  Lemma printed_iri : forall name f x r, faithful name f x -> ends r ->
    exists y, takes IRI (pp_iri_ref name x ++ r) r y /\ r_iri f y = Some x.
  Proof.
    intros name f x r (s & y & -> & H & E) K. exists y. split; [apply takes_iri; assumption|]. unfold r_iri. rewrite E. reflexivity.
  Qed.
  Lemma printed_pat : forall p t r, printable_pat nodes node_name show p -> pp_pat node_name show p = Some t ->
    exists p', object_at True (t ++ 32 :: r) (32 :: r) p' /\ r_pat nodes p' = Some p.
  Proof.
    assert (Sp : forall r, ends (32 :: r)) by (intros r; apply ends_cons; cbn; tauto).
    intros [[x|[s|s l|s d|s k|b]]| |] t r H E; cbn in H, E; try tauto; try discriminate; injection E as <-.
    - destruct (printed_iri _ _ _ _ H (Sp r)) as (y & T & R). exists (Node (VIri y)). split; [apply obj_iri, T|]. cbn. rewrite R. reflexivity.
    - exists (Node (VLit (Plain s))). split; [apply obj_lit, lit_string, takes_string, H|reflexivity].
    - exists (Node (VLit (Number s k))). split; [apply obj_lit, lit_number, takes_number; [exact H|apply Sp]|reflexivity].
    - exists Wildcard. split; [constructor|reflexivity].
  Qed.
  Lemma printed_subject : forall p t r, printable_pat nodes node_name show p -> pp_pat node_name show p = Some t ->
    (forall x, p = Node (VIri (Iri x)) -> forall w r, node_name x = w ++ r -> ~ spelled kw_focus w) ->
    forall w r', t ++ 32 :: r = w ++ r' -> ~ spelled kw_focus w.
  Proof.
    intros [[x|[s|s l|s d|s k|b]]| |] t r H E N; cbn in H, E; try tauto; try discriminate; injection E as <-.
    - destruct H as (s & y & -> & I & _). cbn [pp_iri_ref]. specialize (N s eq_refl). intros w r' E Sp.
      destruct (Nat.le_gt_cases (length w) (length (node_name s))) as [L|L].
      + destruct (app_short _ _ _ _ (eq_sym E) L) as (m & Em & _). exact (N _ _ Em Sp).
      + destruct (app_short _ _ _ _ E (Nat.lt_le_incl _ _ L)) as (m & Ew & Em). destruct m as [|c m].
        * rewrite app_nil_r in Ew. subst w. unfold str, char in *. lia.
        * cbn in Em. injection Em as <- _. pose proof (spelled_letters _ _ letters_focus Sp) as F. rewrite Ew in F. apply Forall_app in F. destruct F as (_ & F).
          inversion F as [|? ? L32]; subst. unfold letter in L32. lia.
    - apply not_focus; lia.
    - destruct (number_first _ _ H) as (c & u & -> & K). apply not_focus; unfold digit in K; lia.
    - apply not_focus; lia.
  Qed.
  Lemma printed_node : forall n t r, printable_node nodes node_name show n -> pp_selector node_name show n = Some t ->
    exists n', node_at True (t ++ 64 :: r) (64 :: r) n' /\ r_selector nodes n' = Some n.
  Proof.
    assert (At : forall r, ends (64 :: r)) by (intros r; apply ends_cons; cbn; tauto).
    assert (Spc : forall r, ends (32 :: r)) by (intros r; apply ends_cons; cbn; tauto).
    intros n t r H E. destruct n as [[x|[s|s l|s d|s k|b]]|l|s p o|q]; cbn [printable_node pp_selector pp_node] in H, E; try tauto; try discriminate.
    - injection E as <-. destruct (printed_iri _ _ _ _ H (At r)) as (y & T & R). exists (SelNode (VIri y)). split; [apply node_iri, T|]. cbn. rewrite R. reflexivity.
    - injection E as <-. exists (SelNode (VLit (Number s k))). split; [apply node_literal, lit_number, takes_number; [exact H|apply At]|reflexivity].
    - injection E as <-. exists (SelBNode l). split; [|reflexivity]. apply node_bnode, takes_label; [exact H|apply At].
    - assert (Hs : s = Focus /\ faithful node_name nodes p /\ printable_pat nodes node_name show o \/
                   o = Focus /\ printable_pat nodes node_name show s /\ faithful node_name nodes p /\
                   (forall x, s = Node (VIri (Iri x)) -> forall w r, node_name x = w ++ r -> ~ spelled kw_focus w)).
      { destruct s; [destruct o; [destruct H|destruct H|]|destruct o; [destruct H|destruct H|]|]; tauto. }
      destruct (pp_pat node_name show s) as [ts|] eqn:Es; [|discriminate]. destruct (pp_pat node_name show o) as [to|] eqn:Eo; [|discriminate].
      injection E as <-. repeat first [rewrite <- app_assoc | progress cbn [app]].
      destruct Hs as [(-> & Hp & Ho)|(-> & Hs & Hp & N)].
      + cbn in Es. injection Es as <-. destruct (printed_iri _ _ _ (32 :: to ++ 32 :: 125 :: 64 :: r) Hp (Spc _)) as (y & T & R).
        destruct (printed_pat _ _ (125 :: 64 :: r) Ho Eo) as (o' & O & Ro). exists (SelTriple Focus y o'). split; [|cbn; rewrite R, Ro; reflexivity].
        eapply node_triple; [apply space|eapply focus_first; [apply keyword_here|apply space|apply pred_iri, T|apply space|exact O]|apply space].
      + cbn in Eo. injection Eo as <-. destruct (printed_iri _ _ _ (32 :: kw_focus ++ 32 :: 125 :: 64 :: r) Hp (Spc _)) as (y & T & R).
        destruct (printed_pat _ _ (pp_iri_ref node_name p ++ 32 :: kw_focus ++ 32 :: 125 :: 64 :: r) Hs Es) as (s' & O & Ro).
        exists (SelTriple s' y Focus). split; [|cbn; rewrite R, Ro; reflexivity].
        eapply node_triple; [apply space| |apply space].
        eapply focus_last; [intros _; exact (printed_subject _ _ _ Hs Es N)|exact O|apply space|apply pred_iri, T|apply space|apply keyword_here].
    - injection E as <-. exists (SelSparql q). split; [|reflexivity].
      assert (Ea : (kw_sparql ++ [32] ++ [39; 39; 39] ++ q ++ [39; 39; 39]) ++ 64 :: r = kw_sparql ++ 32 :: ([39; 39; 39] ++ q ++ [39; 39; 39] ++ 64 :: r)).
      { cbn [app kw_sparql]. do 10 f_equal. exact (eq_sym (app_assoc q [39; 39; 39] (64 :: r))). }
      match goal with |- node_at _ ?i _ _ => change i with ((kw_sparql ++ [32] ++ [39; 39; 39] ++ q ++ [39; 39; 39]) ++ 64 :: r) end. rewrite Ea.
      eapply node_sparql; [apply keyword_here|apply space|apply takes_query, H].
  Qed.
  Definition line_ends (r : str) : Prop := forall c s, r = c :: s -> c = 10.
  Lemma printed_shape : forall s r, printable_shape shapes shape_name s -> line_ends r ->
    exists s', shape_at True (pp_shape shape_name s ++ r) r s' /\ r_shape shapes s' = Some s.
  Proof.
    intros s r H K. assert (En : ends r) by (intros c t E; rewrite (K c t E); cbn; tauto). destruct s as [[x|l]|]; cbn [printable_shape pp_shape] in *.
    - destruct (printed_iri _ _ _ _ H En) as (y & T & R). exists (Label (LIri y)). split; [apply shape_iri, T|]. cbn. rewrite R. reflexivity.
    - exists (Label (LBNode l)). split; [|reflexivity]. apply shape_bnode, takes_label; assumption.
    - exists Start. split; [|reflexivity]. apply shape_start; [apply keyword_here|]. intros _ c t E P. rewrite (K c t E) in P.
      unfold in_name, PN_CHARS, PN_CHARS_U, digit in P. destruct P as [[[P|P]|P]|P]; try (apply base_range in P); lia.
  Qed.
  Lemma printed_pair : forall a t r, printable nodes shapes node_name shape_name show a -> pp_assoc node_name shape_name show a = Some t -> line_ends r ->
    exists a', pair_at True (t ++ r) r a' /\ r_assoc nodes shapes a' = Some a.
  Proof.
    intros (n & s) t r (Hn & Hs) E K. unfold pp_assoc in E. cbn [fst snd] in *. destruct (pp_selector node_name show n) as [tn|] eqn:En; [|discriminate]. injection E as <-.
    destruct (printed_node _ _ (pp_shape shape_name s ++ r) Hn En) as (n' & N & Rn). destruct (printed_shape _ _ Hs K) as (s' & Sh & Rs).
    exists (n', s'). rewrite <- app_assoc. cbn [app]. split; [|unfold r_assoc; cbn [fst snd]; rewrite Rn, Rs; reflexivity].
    econstructor; [exact N|constructor|constructor|exact Sh].
  Qed.
  Theorem printed_one : forall a t, printable nodes shapes node_name shape_name show a -> pp_shapemap node_name shape_name show [a] = Some t -> ~ trouble t ->
    parse nodes shapes t = Done [a].
  Proof.
    intros a t P E T. cbn in E. destruct (printed_pair a t [] P E ltac:(intros c s K; discriminate)) as (a' & Pa & R). rewrite app_nil_r in Pa.
    destruct (pair_head _ _ _ Pa T) as (_ & C). unfold parse. rewrite (statements_full t [a']); [|exists t, []; split; [constructor|split; [apply pairs_one, Pa|left; constructor]]|exact T].
    cbn [r_all]. rewrite R. reflexivity.
  Qed.
  (** Two printed pairs are refused: nothing stands between them. *)
  Lemma pair_not_comma : forall i r a, pair_at True i r a -> ~ trouble i -> exists c s, i = c :: s /\ solid c /\ c <> 44.
  Proof.
    intros i r a H T. inversion H as [i1 i2 i3 i4 r0 n s N Sk1 Sk2 Sh]; subst. clear H. destruct N as [i r0 x N|i r0 l N|i r0 l N|j1 j2 j3 r0 t Sk Tr Sk3|j1 j2 j3 r0 q K Sk St].
    - destruct (takes_first _ _ _ _ _ _ iri_first N) as (c & u & -> & K). exists c, u. split; [reflexivity|split; [apply solid_iri, K|]].
      destruct K as [->|[->|K]]; [lia|lia|]. apply base_range in K. lia.
    - destruct N as (w & (-> & _) & V). destruct (label_first _ _ V) as (u & ->). exists 95, (u ++ r0). split; [reflexivity|split; [cbv; intuition discriminate|lia]].
    - destruct N as [i r0 l N|i r0 u k N|r0 N|r0 N].
      + destruct (takes_first _ _ _ _ _ _ lit_first N) as (c & u & -> & K). exists c, u. split; [reflexivity|split; [apply solid_quote, K|]]. unfold quote in K. lia.
      + destruct (takes_first _ _ _ _ _ _ number_first N) as (c & v & -> & K). exists c, v. split; [reflexivity|split; [apply solid_number, K|]]. unfold digit in K. lia.
      + exists 116, ([114; 117; 101] ++ r0). split; [reflexivity|split; [apply solid_letter; unfold letter; lia|lia]].
      + exists 102, ([97; 108; 115; 101] ++ r0). split; [reflexivity|split; [apply solid_letter; unfold letter; lia|lia]].
    - exists 123, j1. split; [reflexivity|split; [cbv; intuition discriminate|lia]].
    - destruct (keyword_first _ _ _ _ letters_sparql K) as (d & j & -> & L & _). exists d, j. split; [reflexivity|split; [apply solid_letter, L|]]. unfold letter in L. lia.
  Qed.
  Theorem printed_two : forall a b l t, printable nodes shapes node_name shape_name show a -> printable nodes shapes node_name shape_name show b ->
    pp_shapemap node_name shape_name show (a :: b :: l) = Some t -> ~ trouble t -> parse nodes shapes t = Error.
  Proof.
    intros a b l t Pa Pb E T. cbn [pp_shapemap] in E. destruct (pp_assoc node_name shape_name show a) as [ta|] eqn:Ea; [|discriminate].
    assert (Eb : exists tb z, pp_assoc node_name shape_name show b = Some tb /\ t = ta ++ 10 :: tb ++ z /\ line_ends z).
    { destruct l as [|c l].
      - destruct (pp_assoc node_name shape_name show b) as [tb|] eqn:Eb; [|discriminate]. injection E as <-. exists tb, []. rewrite app_nil_r.
        split; [reflexivity|split; [reflexivity|intros c s K; discriminate]].
      - destruct (pp_assoc node_name shape_name show b) as [tb|] eqn:Eb; [|discriminate].
        destruct (pp_shapemap node_name shape_name show (c :: l)) as [tl|]; [|discriminate]. injection E as <-.
        exists tb, (10 :: tl). split; [reflexivity|split; [reflexivity|intros d s K; injection K as <- _; reflexivity]]. }
    destruct Eb as (tb & z & Eb & -> & Lz). destruct (printed_pair a ta (10 :: tb ++ z) Pa Ea ltac:(intros c s K; injection K as <- _; reflexivity)) as (a' & PA & _).
    destruct (printed_pair b tb z Pb Eb Lz) as (b' & PB & _). destruct (pair_head _ _ _ PA T) as (Sf & C). destruct (pair_full _ _ _ PA T) as (r' & EA & Sk).
    destruct (pair_not_comma _ _ _ PB ltac:(apply (suf_ok _ _ (suf_tail _ _ _ Sf) T))) as (c & s & Ec & Sc & Nc).
    assert (Cl : clean (tb ++ z)) by (rewrite Ec; apply solid_clean, Sc).
    assert (W : tws0 r' = Ok tt (tb ++ z)). { apply (tws0_from (10 :: tb ++ z)); [|exact Cl|exact Sk]. apply skip_space; [cbn; tauto|constructor]. }
    unfold parse, statements. rewrite (tws0_clean _ C). cbn [bind]. unfold shapemap_statement. rewrite EA. cbn [bind]. rewrite W. cbn [bind].
    unfold rest_associations, many0. cbn [many]. unfold next_association at 1. rewrite Ec. rewrite token_err by (assumption || congruence). cbn [bind].
    rewrite Ec in Cl. rewrite (tws0_clean _ Cl). cbn [bind]. unfold popt. rewrite is_err by congruence. cbn [bind]. rewrite (tws0_clean _ Cl). reflexivity.
  Qed.
End Printed.
