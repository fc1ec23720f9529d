(** IRIs and literals. *)
From Coq Require Import List NArith ZArith Bool Lia.
From Verif Require Import LexModel LexSpec LexCore LexLemmas LexNames LexPn LexLocal.
Import ListNotations.
Local Open Scope N_scope.

Lemma trouble_on : onward trouble.
Proof. intros a i [H|H]; [left; apply no_character_on, H|right; apply foreign_on, H]. Qed.

(** * Prefixed names *)

Lemma local_proper : forall e, proper (local_dots e).
Proof.
  intros e w v (w1 & w2 & a & vs & -> & _ & H & _) E. apply app_eq_nil in E. destruct E as (-> & _).
  destruct H as [(x & Ex & _)|[(_ & x & y & d & z & Ex & _)|(x & Ex & _)]]; discriminate.
Qed.
Definition prefix_free {A} (L : lang A) : Prop := forall w1 r1 w2 r2 v1 v2, w1 ++ r1 = w2 ++ r2 -> L w1 v1 -> L w2 v2 -> w1 = w2 /\ v1 = v2.
Lemma free_scan : forall A (p : parser A) L, scan never p L -> prefix_free L.
Proof.
  intros A p L S w1 r1 w2 r2 v1 v2 E H1 H2. specialize (S (w1 ++ r1)). destruct (p (w1 ++ r1)).
  - destruct S as (w & _ & _ & U). destruct (U _ _ _ eq_refl H1) as (-> & ->). destruct (U _ _ _ E H2) as (-> & ->). auto.
  - destruct (S _ _ _ eq_refl H1).
  - destruct S.
  - destruct S.
Qed.
Lemma free_either : forall A (L M : lang A), prefix_free L -> prefix_free M -> apart L M -> prefix_free (either L M).
Proof.
  intros A L M FL FM D w1 r1 w2 r2 v1 v2 E [H1|H1] [H2|H2].
  - exact (FL _ _ _ _ _ _ E H1 H2).
  - destruct (D _ _ _ _ _ _ E H1 H2).
  - symmetry in E. destruct (D _ _ _ _ _ _ E H2 H1).
  - exact (FM _ _ _ _ _ _ E H1 H2).
Qed.
Lemma free_ns : prefix_free single_dots.
Proof. exact (free_scan _ _ _ (scan_pname_ns never)). Qed.
Lemma soft_pname_ns : soft pname_ns.
Proof. intros i E. pose proof (scan_pname_ns never i) as S. rewrite E in S. exact S. Qed.
Lemma soft_plx : soft plx.
Proof. intros i E. pose proof (scan_plx never never_on i) as S. rewrite E in S. exact S. Qed.
Lemma soft_local : soft pn_local.
Proof.
  apply soft_recognize, soft_bind; [|intros _].
  - intros i E. pose proof (scan_local_start i) as S. rewrite E in S. exact S.
  - intros i E. unfold pn_local3, recognize, many0 in E.
    change (alt (take_while1 is_pn_chars_colon) (alt plx (fun i0 => match char_dot i0 with
      | Ok _ r => Ok (used i0 r) r | Err => Err | Fail => Fail | Panic => Panic end))) with run_piece in E.
    pose proof (many_runs (S (length i)) i ltac:(lia)) as H. destruct (many (S (length i)) run_piece i); try discriminate. exact H.
Qed.
Lemma reads_pname_ln : reads foreign pname_ln (follow single_dots (local_dots keep) Prefixed).
Proof.
  unfold pname_ln. eapply reads_equiv; [|apply reads_bind; [apply foreign_on|apply scan_pname_ns|intros a; apply reads_pmap, reads_pn_local]].
  intros w v. unfold follow. split.
  - intros (w1 & w2 & a & -> & H & l & -> & Hl). exists w1, w2, a, l. auto.
  - intros (w1 & w2 & a & l & -> & -> & H & Hl). exists w1, w2, a. eauto.
Qed.
Theorem reads_prefixed : reads foreign prefixed_name (prefixed single_dots (local_dots keep)).
Proof.
  unfold prefixed_name, prefixed. apply reads_alt; [apply reads_pname_ln|apply reads_pmap, reads_scan, scan_pname_ns| |].
  - intros w1 r1 w2 r2 v1 v2 E (u1 & u2 & a & l & -> & -> & H & Hl) (p & -> & Hp). rewrite <- app_assoc in E.
    destruct (free_ns _ _ _ _ _ _ E H Hp) as (-> & _). rewrite app_length. pose proof (local_proper _ _ _ Hl) as Ne.
    destruct u2; [destruct (Ne eq_refl)|cbn; lia].
  - intros i E. exfalso. revert E. apply (soft_bind _ _ pname_ns (fun p => pmap (Prefixed p) pn_local)); [apply soft_pname_ns|intros p; apply soft_pmap, soft_local].
Qed.
Lemma prefixed_first : forall w v, prefixed single_dots (local_dots keep) w v -> exists c s, w = c :: s /\ c <> 60.
Proof.
  assert (K : forall w p, single_dots w p -> exists c s, w = c :: s /\ c <> 60).
  { intros w p ((-> & [->|(c & s & -> & Hc & _)]) & _); [exists 58, []; split; [reflexivity|discriminate]|].
    exists c, (s ++ [58]). split; [reflexivity|]. intros ->. apply base_iff in Hc. discriminate. }
  intros w v [(w1 & w2 & a & l & -> & _ & H & _)|(p & _ & H)]; apply K in H; destruct H as (c & s & -> & Hc); cbn; eauto.
Qed.
Lemma soft_iri_ref : soft iri_ref.
Proof. intros i E. pose proof (scan_iri_ref i) as S. rewrite E in S. exact S. Qed.
Theorem reads_iri : reads trouble iri (iris single_dots (local_dots keep)).
Proof.
  unfold iri, iris. apply reads_alt.
  - apply reads_pmap. eapply reads_weaken; [|apply reads_scan, scan_iri_ref]. intros i H. left. exact H.
  - eapply reads_weaken; [|apply reads_prefixed]. intros i H. right. exact H.
  - intros w1 r1 w2 r2 v1 v2 E (s & -> & m & -> & _) H. apply prefixed_first in H. destruct H as (c & t & -> & Hc). cbn in E. congruence.
  - intros i E. exfalso. revert E. apply soft_pmap, soft_iri_ref.
Qed.

(** * Literals *)

Lemma free_uchar : prefix_free UCHAR.
Proof.
  intros w1 r1 w2 r2 v1 v2 E (C1 & _) (C2 & _). apply code_point_iff in C1, C2.
  destruct C1 as (d1 & F1 & -> & H1), C2 as (d2 & F2 & -> & H2).
  destruct (free_scan _ _ _ (scan_digits never never_on) _ _ _ _ d1 d2 E) as (-> & ->); [split; assumption|split; assumption|auto].
Qed.
Lemma free_char : forall stop, In 92 stop -> prefix_free (char_but stop).
Proof.
  intros stop H. apply free_either.
  - intros w1 r1 w2 r2 v1 v2 E (-> & _) (-> & _). cbn in E. injection E as -> _. auto.
  - apply free_either; [exact (free_scan _ _ _ (scan_echar never never_on))|exact free_uchar|exact echar_uchar].
  - intros w1 r1 w2 r2 v1 v2 E (-> & N) K. apply escape_first in K. destruct K as (s & ->). cbn in E. injection E as -> E. exact (N H).
Qed.
Lemma free_until : forall A (L : lang A) q, prefix_free L -> (forall w v r r', L w v -> w ++ r <> q ++ r') ->
  forall w1 vs1, star L w1 vs1 -> forall w2 vs2 r1 r2, star L w2 vs2 -> w1 ++ q ++ r1 = w2 ++ q ++ r2 -> w1 = w2 /\ vs1 = vs2.
Proof.
  intros A L q F D w1 vs1 St. induction St as [|w v ws vs H St IH]; intros w2 vs2 r1 r2 S2 E.
  - destruct S2 as [|u x us xs Hu Su]; [auto|]. exfalso. rewrite <- app_assoc in E. symmetry in E. exact (D _ _ _ _ Hu E).
  - destruct S2 as [|u x us xs Hu Su].
    + exfalso. rewrite <- app_assoc in E. exact (D _ _ _ _ H E).
    + rewrite <- !app_assoc in E. destruct (F _ _ _ _ _ _ E H Hu) as (-> & ->). apply app_inv_head in E.
      destruct (IH _ _ _ _ Su E) as (-> & ->). auto.
Qed.
Lemma free_between : forall A (L : lang A) a b, prefix_free L -> (forall w v r r', L w v -> w ++ r <> b ++ r') -> prefix_free (between a (star L) b).
Proof.
  intros A L a b F D w1 r1 w2 r2 v1 v2 E (m1 & -> & S1) (m2 & -> & S2). rewrite <- !app_assoc in E. apply app_inv_head in E.
  destruct (free_until A L b F D _ _ S1 _ _ _ _ S2 E) as (-> & ->). auto.
Qed.
Lemma char_not_quote : forall q stop b, q <> 92 -> In q stop -> In 92 stop -> forall w v r r', char_but stop w v -> w ++ r <> (q :: b) ++ r'.
Proof.
  intros q stop b Hq Iq I9 w v r r' H E. apply char_but_first in H; [|exact I9]. destruct H as (c & s & -> & H). cbn in E. injection E as -> _.
  destruct H as [->|H]; [congruence|]. exact (H Iq).
Qed.
Lemma free_short : forall q, q <> 92 -> prefix_free (between [q] (star (char_but [q; 92; 10; 13])) [q]).
Proof. intros q Hq. apply free_between; [apply free_char; cbn; tauto|]. apply char_not_quote; [exact Hq|cbn; tauto|cbn; tauto]. Qed.
Lemma free_long : forall q, q <> 92 -> prefix_free (long 0 q).
Proof.
  intros q Hq w1 r1 w2 r2 v1 v2 E H1 H2. apply long_plain in H1, H2. revert E H1 H2.
  apply (free_between _ (char_but [q; 92]) [q; q; q] [q; q; q]); [apply free_char; cbn; tauto|]. apply char_not_quote; [exact Hq|cbn; tauto|cbn; tauto].
Qed.
Definition quote (c : char) : Prop := c = 39 \/ c = 34.
(** A string that is the beginning of another is empty and a quote follows. *)
Lemma strings_two : forall w1 r1 w2 r2 v1 v2, w1 ++ r1 = w2 ++ r2 -> strings 0 w1 v1 -> strings 0 w2 v2 ->
  w1 = w2 /\ v1 = v2 \/ (length w1 < length w2)%nat /\ (exists c s, r1 = c :: s /\ quote c) \/ (length w2 < length w1)%nat.
Proof.
  assert (LS : forall q w1 r1 w2 r2 v1 v2, q <> 92 -> quote q -> w1 ++ r1 = w2 ++ r2 -> long 0 q w2 v2 -> between [q] (star (char_but [q; 92; 10; 13])) [q] w1 v1 ->
    (length w1 < length w2)%nat /\ exists c s, r1 = c :: s /\ quote c).
  { intros q w1 r1 w2 r2 v1 v2 Hq Qq E HL HS. apply long_first in HL. destruct HL as (m & ->). cbn [app] in E.
    destruct (short_after q w1 v1 r1 Hq HS _ E) as (-> & ->). split; [cbn; lia|eauto]. }
  intros w1 r1 w2 r2 v1 v2 E [[H1|H1]|[H1|H1]] [[H2|H2]|[H2|H2]];
    try (exfalso; first [apply long_first in H1; destruct H1 as (? & ->)|destruct H1 as (? & -> & _)];
         first [apply long_first in H2; destruct H2 as (? & ->)|destruct H2 as (? & -> & _)]; cbn in E; discriminate).
  - left. eapply (free_long 39); [discriminate|exact E|exact H1|exact H2].
  - right; right. symmetry in E. destruct (LS 39 _ _ _ _ _ _ ltac:(discriminate) (or_introl eq_refl) E H1 H2). assumption.
  - left. eapply (free_long 34); [discriminate|exact E|exact H1|exact H2].
  - right; right. symmetry in E. destruct (LS 34 _ _ _ _ _ _ ltac:(discriminate) (or_intror eq_refl) E H1 H2). assumption.
  - right; left. exact (LS 39 _ _ _ _ _ _ ltac:(discriminate) (or_introl eq_refl) E H2 H1).
  - left. eapply (free_short 39); [discriminate|exact E|exact H1|exact H2].
  - right; left. exact (LS 34 _ _ _ _ _ _ ltac:(discriminate) (or_intror eq_refl) E H2 H1).
  - left. eapply (free_short 34); [discriminate|exact E|exact H1|exact H2].
Qed.
Definition suffix (s : str) : lang lit := either (fun w x => exists l, x = Tagged s l /\ LANGTAG w l)
  (fun w x => exists d, x = Typed s d /\ between [94; 94] (iris single_dots (local_dots keep)) [] w d).
Lemma soft_many : forall A (p : parser A), soft p -> soft (many0 p).
Proof.
  intros A p H i. unfold many0. generalize (S (length i)) as n. intros n. revert i. induction n as [|n IH]; intros i; [discriminate|]. cbn [many].
  specialize (H i). destruct (p i) as [v r| | |]; [|discriminate|congruence|discriminate].
  destruct (Nat.eqb _ _); [discriminate|]. unfold pmap. specialize (IH r). destruct (many n p r); congruence.
Qed.
Lemma soft_lang_tag : soft lang_tag.
Proof.
  apply soft_bind; [apply soft_tag|intros _]. apply soft_recognize, soft_bind; [apply soft_take1|intros _]. apply soft_many.
  apply soft_bind; [apply soft_tag|intros _; apply soft_take1].
Qed.
Lemma soft_prefixed : soft prefixed_name.
Proof.
  apply soft_alt; [|apply soft_pmap, soft_pname_ns].
  apply soft_bind; [apply soft_pname_ns|intros p; apply soft_pmap, soft_local].
Qed.
Lemma soft_iri : soft iri.
Proof. apply soft_alt; [apply soft_pmap, soft_iri_ref|apply soft_prefixed]. Qed.
Lemma soft_suffix : forall s, soft (alt (pmap (Tagged s) lang_tag) (fun i => bind (tag [94; 94] i) (fun _ => pmap (Typed s) iri))).
Proof. intros s. apply soft_alt; [apply soft_pmap, soft_lang_tag|]. apply soft_bind; [apply soft_tag|intros _; apply soft_pmap, soft_iri]. Qed.
Lemma reads_suffix : forall s, reads trouble (alt (pmap (Tagged s) lang_tag) (fun i => bind (tag [94; 94] i) (fun _ => pmap (Typed s) iri))) (suffix s).
Proof.
  intros s. unfold suffix. eapply reads_equiv; [|apply reads_alt; [apply reads_pmap; eapply reads_weaken; [|apply reads_lang_tag]|apply reads_bind; [apply trouble_on|apply scan_tag|intros a; apply reads_pmap, reads_iri]|..]].
  - intros w x. unfold either, between. split.
    + intros [H|(w1 & w2 & a & -> & (-> & ->) & d & -> & H)]; [left; exact H|right]. exists d. split; [reflexivity|]. exists w2. rewrite app_nil_r. auto.
    + intros [H|(d & -> & m & -> & H)]; [left; exact H|right]. rewrite app_nil_r. exists [94; 94], m, [94; 94]. split; [reflexivity|split; [auto|eauto]].
  - intros i [].
  - intros w1 r1 w2 r2 v1 v2 E (l & -> & -> & _) (u1 & u2 & a & -> & (-> & ->) & _). discriminate.
  - intros i E. destruct (soft_pmap _ _ (Tagged s) _ soft_lang_tag i E).
Qed.
Lemma suffix_first : forall s w v, suffix s w v -> exists c t, w = c :: t /\ (c = 64 \/ c = 94).
Proof. intros s w v [(l & _ & -> & _)|(d & _ & m & -> & _)]; cbn; eauto. Qed.
Lemma suffix_other : forall s s' w v, suffix s w v -> exists v', suffix s' w v'.
Proof. intros s s' w v [(l & _ & H)|(d & _ & H)]; [exists (Tagged s' l); left; eauto|exists (Typed s' d); right; eauto]. Qed.
Lemma literals_iff : forall w x, literals (strings 0) (iris single_dots (local_dots keep)) w x <->
  exists w1 w2 s, w = w1 ++ w2 /\ strings 0 w1 s /\ (w2 = [] /\ x = Plain s \/ suffix s w2 x).
Proof.
  intros w x. unfold literals, either, suffix, follow. split.
  - intros [(s & -> & H)|[(w1 & w2 & s & l & -> & -> & H & Hl)|(w1 & w2 & s & d & -> & -> & H & Hd)]].
    + exists w, [], s. rewrite app_nil_r. auto.
    + exists w1, w2, s. split; [reflexivity|split; [exact H|right; left; eauto]].
    + exists w1, w2, s. split; [reflexivity|split; [exact H|right; right; eauto]].
  - intros (w1 & w2 & s & -> & H & [(-> & ->)|[(l & -> & Hl)|(d & -> & Hd)]]).
    + left. rewrite app_nil_r. eauto.
    + right; left. exists w1, w2, s, l. auto.
    + right; right. exists w1, w2, s, d. auto.
Qed.
Theorem reads_literal : reads trouble rdf_literal (literals (strings 0) (iris single_dots (local_dots keep))).
Proof.
  eapply reads_equiv; [intros w x; symmetry; apply literals_iff|]. intros i. unfold rdf_literal. pose proof (reads_string i) as R.
  destruct (string i) as [s r| | |]; cbn [bind].
  - destruct R as (w & -> & V & U). assert (Hw : strings 0 w s) by (apply V; reflexivity).
    assert (K : forall w' r' x u1 u2 s', w ++ r = w' ++ r' -> w' = u1 ++ u2 -> strings 0 u1 s' -> (u2 = [] /\ x = Plain s' \/ suffix s' u2 x) ->
      u1 = w /\ s' = s /\ r = u2 ++ r' \/ (length w' < length w)%nat).
    { intros w' r' x u1 u2 s' E -> Hu Hx. rewrite <- app_assoc in E.
      destruct (strings_two _ _ _ _ _ _ (eq_sym E) Hu Hw) as [(-> & ->)|[(Hl & c & t & Ec & Qc)|Hl]].
      - left. apply app_inv_head in E. auto.
      - right. destruct Hx as [(-> & _)|Hx]; [rewrite app_nil_r; exact Hl|]. exfalso. apply suffix_first in Hx.
        destruct Hx as (d & z & -> & Hd). cbn in Ec. injection Ec as -> _. destruct Qc, Hd; subst; discriminate.
      - pose proof (U _ _ _ E Hu). lia. }
    unfold popt. pose proof (reads_suffix s r) as Rs. pose proof (soft_suffix s r) as Ss.
    destruct (alt (pmap (Tagged s) lang_tag) (fun i => bind (tag [94; 94] i) (fun _ => pmap (Typed s) iri)) r) as [x r2| | |]; cbn [bind].
    + destruct Rs as (w2 & -> & V2 & U2). exists (w ++ w2). split; [apply app_assoc|split].
      * intros v'. split.
        -- intros (u1 & u2 & s' & E & Hu & Hx). destruct (K (w ++ w2) r2 v' u1 u2 s' ltac:(apply app_assoc) E Hu Hx) as [(-> & -> & Er)|Hl].
           ++ apply app_inv_head in E. subst u2. destruct Hx as [(-> & ->)|Hx]; [|apply V2, Hx].
              destruct (suffix_first _ _ _ (proj2 (V2 x) eq_refl)) as (c & t & E & _). discriminate.
           ++ rewrite app_length in Hl. lia.
        -- intros ->. exists w, w2, s. split; [reflexivity|split; [exact Hw|right; apply V2; reflexivity]].
      * intros w' r' v' E (u1 & u2 & s' & Ew & Hu & Hx). destruct (K _ _ _ _ _ _ E Ew Hu Hx) as [(-> & -> & Er)|Hl].
        -- subst w'. rewrite !app_length. destruct Hx as [(-> & _)|Hx]; [cbn; lia|]. pose proof (U2 _ _ _ Er Hx). lia.
        -- rewrite app_length. lia.
    + exists w. split; [reflexivity|split].
      * intros v'. split.
        -- intros (u1 & u2 & s' & E & Hu & Hx). destruct (K w r v' u1 u2 s' eq_refl E Hu Hx) as [(-> & -> & Er)|Hl]; [|lia].
           destruct Hx as [(_ & ->)|Hx]; [reflexivity|]. destruct (Rs _ _ _ Er Hx).
        -- intros ->. exists w, [], s. rewrite app_nil_r. auto.
      * intros w' r' v' E (u1 & u2 & s' & Ew & Hu & Hx). destruct (K _ _ _ _ _ _ E Ew Hu Hx) as [(-> & -> & Er)|Hl]; [|lia].
        destruct Hx as [(-> & _)|Hx]; [subst w'; rewrite app_nil_r; lia|]. destruct (Rs _ _ _ Er Hx).
    + congruence.
    + apply trouble_on, Rs.
  - intros w r v E (w1 & w2 & s & -> & H & _). rewrite <- app_assoc in E. exact (R _ _ _ E H).
  - intros w r v E (w1 & w2 & s & -> & H & _). rewrite <- app_assoc in E. exact (R _ _ _ E H).
  - left. exact R.
Qed.
