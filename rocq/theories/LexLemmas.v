(** The readers of escapes, strings and names read their languages. *)
From Coq Require Import List NArith ZArith Bool Lia.
From Verif Require Import LexModel LexSpec LexCore.
Import ListNotations.
Local Open Scope N_scope.

(** * Characters *)

Lemma among_In : forall s c, among s c = true <-> In c s.
Proof.
  intros s c. unfold among. rewrite existsb_exists. split.
  - intros (x & H & E). apply N.eqb_eq in E. subst. exact H.
  - intros H. exists c. split; [exact H|apply N.eqb_refl].
Qed.
Lemma not_among : forall s c, negb (among s c) = true <-> ~ In c s.
Proof. intros s c. rewrite <- among_In. destruct (among s c); cbn; split; intuition congruence. Qed.
Lemma in_range_iff : forall c a b, in_range c a b = true <-> a <= c <= b.
Proof. intros c a b. unfold in_range. rewrite andb_true_iff, !N.leb_le. tauto. Qed.
Lemma digit_iff : forall c, is_digit c = true <-> digit c.
Proof. intros c. apply in_range_iff. Qed.
Lemma letter_iff : forall c, is_alpha c = true <-> letter c.
Proof. intros c. unfold is_alpha, letter. rewrite orb_true_iff, !in_range_iff. tauto. Qed.
Lemma within_cons : forall a b rs c, within ((a, b) :: rs) c <-> a <= c <= b \/ within rs c.
Proof.
  intros a b rs c. unfold within. split.
  - intros (r & [<-|H] & K); [left; exact K|right; eauto].
  - intros [K|(r & H & K)]; [exists (a, b); split; [left; reflexivity|exact K]|exists r; split; [right; exact H|exact K]].
Qed.
Lemma within_nil : forall c, within [] c <-> False.
Proof. intros c. split; [intros (r & [] & _)|tauto]. Qed.
Lemma base_iff : forall c, is_pn_chars_base c = true <-> PN_CHARS_BASE c.
Proof.
  intros c. unfold is_pn_chars_base, PN_CHARS_BASE, is_alpha. rewrite !orb_true_iff, !in_range_iff, !within_cons, within_nil. tauto.
Qed.
Lemma chars_u_iff : forall c, is_pn_chars_u c = true <-> PN_CHARS_U c.
Proof. intros c. unfold is_pn_chars_u, PN_CHARS_U. rewrite orb_true_iff, N.eqb_eq, base_iff. tauto. Qed.
Lemma chars_iff : forall c, is_pn_chars c = true <-> PN_CHARS c.
Proof. intros c. unfold is_pn_chars, PN_CHARS. rewrite !orb_true_iff, !N.eqb_eq, chars_u_iff, digit_iff, !in_range_iff. tauto. Qed.
Lemma start_iff : forall c, is_pn_local_start c = true <-> LOCAL_START c.
Proof. intros c. unfold is_pn_local_start, LOCAL_START. rewrite !orb_true_iff, N.eqb_eq, chars_u_iff, digit_iff. tauto. Qed.
Lemma colon_iff : forall c, is_pn_chars_colon c = true <-> LOCAL_CHAR c.
Proof. intros c. unfold is_pn_chars_colon, LOCAL_CHAR. rewrite !orb_true_iff, N.eqb_eq, chars_iff. tauto. Qed.
Lemma hex_iff : forall c, is_hex c = true <-> exists d, hex_digit c d.
Proof.
  intros c. unfold is_hex, hex_digit. rewrite !orb_true_iff, digit_iff, !in_range_iff. unfold digit. split.
  - intros [[H|H]|H]; eexists; [left|right; right|right; left]; (split; [exact H|reflexivity]).
  - intros (d & [(H & _)|[(H & _)|(H & _)]]); tauto.
Qed.

(** * Escapes *)

Lemma hex_value_iff : forall c d, hex_digit c d <-> is_hex c = true /\ d = hex_value c.
Proof.
  intros c d. split.
  - intros H. split; [apply hex_iff; eauto|]. unfold hex_digit, hex_value, is_digit, in_range in *.
    destruct (N.leb_spec 48 c), (N.leb_spec c 57), (N.leb_spec 97 c); cbn; lia.
  - intros (H & ->). unfold hex_digit, hex_value, is_hex, is_digit, in_range in *.
    destruct (N.leb_spec 48 c), (N.leb_spec c 57), (N.leb_spec 97 c), (N.leb_spec c 102), (N.leb_spec 65 c), (N.leb_spec c 70);
      cbn in *; try discriminate; lia.
Qed.
Lemma hex_list : forall c, among [48; 49; 50; 51; 52; 53; 54; 55; 56; 57; 65; 66; 67; 68; 69; 70; 97; 98; 99; 100; 101; 102] c = true
  <-> is_hex c = true.
Proof.
  intros c. rewrite among_In. unfold is_hex, is_digit. rewrite !orb_true_iff, !in_range_iff. cbn [In]. lia.
Qed.
Lemma numeral_fold : forall s n, numeral s n <-> forallb is_hex s = true /\ n = from_hex s.
Proof.
  intros s. unfold from_hex. induction s as [|c s IH] using rev_ind; intros n.
  - split; [intros H; inversion H as [E|s' n' c d H1 H2 E]; [auto|destruct s'; discriminate]|intros (_ & ->); constructor].
  - rewrite forallb_app, fold_left_app. cbn. rewrite andb_true_r, andb_true_iff. split.
    + intros H. inversion H as [E|s' n' c' d H1 H2 E]; [destruct s; discriminate|].
      apply app_inj_tail in E. destruct E as (-> & ->). apply IH in H1. apply hex_value_iff in H2.
      destruct H1 as (H1 & ->), H2 as (H2 & ->). auto.
    + intros ((H1 & H2) & ->). constructor; [apply IH; auto|apply hex_value_iff; auto].
Qed.
Lemma scalar_iff : forall n, scalar n = true <-> character n.
Proof.
  intros n. unfold scalar, character. rewrite orb_true_iff, N.ltb_lt, in_range_iff. lia.
Qed.

Lemma scan_is : forall bad c, scan bad (is c) (fun w v => w = [c] /\ v = c).
Proof.
  intros bad c. apply scan_equiv with (L := one (fun x => c = x)).
  - intros w v. unfold one. split; intros (-> & ->); auto.
  - apply scan_satisfy. intros x. apply N.eqb_eq.
Qed.
Lemma scan_hex : forall bad, scan bad hex (one (fun c => is_hex c = true)).
Proof. intros bad. apply scan_satisfy. apply hex_list. Qed.
Lemma scan_hexes : forall bad n, onward bad -> scan bad (count n hex) (fun w v => v = w /\ length w = n /\ forallb is_hex w = true).
Proof.
  intros bad n On. induction n as [|n IH]; [intros i|].
  - exists []. split; [reflexivity|split; [auto|]]. intros w' r' v' _ (-> & H & _). destruct w'; [auto|discriminate].
  - cbn [count]. eapply scan_equiv; [|apply scan_bind; [exact On|apply scan_hex|intros a; apply scan_pmap, IH]].
    intros w v. cbn beta. split.
    + intros (w1 & w2 & a & -> & (-> & H) & x & -> & -> & Hl & F). cbn. rewrite H, Hl, F. auto.
    + intros (-> & Hl & F). destruct w as [|c w]; [discriminate|]. cbn in *. apply andb_true_iff in F.
      exists [c], w, c. split; [reflexivity|split; [split; [reflexivity|tauto]|]]. exists w. split; [reflexivity|]. split; [reflexivity|]. split; [lia|tauto].
Qed.

Lemma code_point_iff : forall w n, code_point w n <-> exists ds, forallb is_hex ds = true /\ n = from_hex ds /\
  (w = [92; 117] ++ ds /\ length ds = 4%nat \/ w = [92; 85] ++ ds /\ length ds = 8%nat).
Proof.
  intros w n. unfold code_point. split.
  - intros (ds & H & K). apply numeral_fold in H. exists ds. tauto.
  - intros (ds & F & H & K). exists ds. rewrite numeral_fold. tauto.
Qed.
(** The digits of an escape. *)
Definition digits_of : lang str := fun w ds => forallb is_hex ds = true /\
  (w = [92; 117] ++ ds /\ length ds = 4%nat \/ w = [92; 85] ++ ds /\ length ds = 8%nat).
Lemma scan_digits : forall bad, onward bad -> scan bad (alt (fun i => bind (tag [92; 117] i) (fun _ => count 4 hex))
  (fun i => bind (tag [92; 85] i) (fun _ => count 8 hex))) digits_of.
Proof.
  intros bad On. eapply scan_equiv; [|apply scan_alt].
  2:{ apply scan_bind; [exact On|apply scan_tag|intros a; apply scan_hexes, On]. }
  2:{ apply scan_bind; [exact On|apply scan_tag|intros a; apply scan_hexes, On]. }
  - intros w v. unfold either, digits_of. split.
    + intros [(w1 & w2 & a & -> & (-> & ->) & -> & Hl & F)|(w1 & w2 & a & -> & (-> & ->) & -> & Hl & F)]; auto.
    + intros (F & [(-> & Hl)|(-> & Hl)]); [left|right]; (eexists _, v, _; split; [reflexivity|split; [split; reflexivity|auto]]).
  - intros w1 r1 w2 r2 v1 v2 E (u1 & u2 & a & -> & (-> & ->) & _) (x1 & x2 & b & -> & (-> & ->) & _). cbn in E. discriminate.
Qed.
Lemma scan_uchar : scan no_character uchar UCHAR.
Proof.
  intros i. unfold uchar, bind.
  pose proof (scan_digits never never_on i) as S. destruct (alt _ _ i) as [ds r| | |].
  - destruct S as (w & -> & D & U).
    assert (K : code_point w (from_hex ds)) by (apply code_point_iff; exists ds; destruct D as (F & D); auto).
    destruct (scalar (from_hex ds)) eqn:Sc.
    + exists w. split; [reflexivity|split; [split; [exact K|apply scalar_iff, Sc]|]].
      intros w' r' v' E (C & _). apply code_point_iff in C. destruct C as (ds' & F & -> & H).
      destruct (U w' r' ds' E) as (-> & ->); [split; assumption|]. auto.
    + exists [], w, r, (from_hex ds). split; [reflexivity|split; [exact K|]]. rewrite <- scalar_iff. congruence.
  - intros w r v E (C & _). apply code_point_iff in C. destruct C as (ds' & F & -> & H). apply (S w r ds' E). split; assumption.
  - exact S.
  - destruct S.
Qed.
Lemma scan_echar : forall bad, onward bad -> scan bad echar ECHAR.
Proof.
  intros bad On. unfold echar. eapply scan_equiv; [|apply scan_bind; [exact On|apply scan_tag|intros a; apply scan_pmap, scan_satisfy; intros c; apply among_In]].
  intros w v. cbn beta. unfold ECHAR, one. split.
  - intros (w1 & w2 & a & -> & (-> & ->) & c & -> & -> & H). exists c. split; [reflexivity|]. cbn in H.
    repeat (destruct H as [<-|H]; [cbn; tauto|]). destruct H.
  - intros (c & -> & H). exists [92], [c], [92]. split; [reflexivity|split; [auto|]]. exists c. cbn in H.
    repeat (destruct H as [H|H]; [injection H as <- <-; split; [reflexivity|split; [reflexivity|cbn; tauto]]|]). destruct H.
Qed.

Lemma echar_uchar : apart ECHAR UCHAR.
Proof.
  intros w1 r1 w2 r2 v1 v2 E (c & -> & H) ((ds & _ & [(-> & _)|(-> & _)]) & _); cbn in E; injection E as -> E; cbn in H;
    repeat (destruct H as [H|H]; [discriminate|]); destruct H.
Qed.
Lemma escape_first : forall w v, either ECHAR UCHAR w v -> exists s, w = 92 :: s.
Proof. intros w v [(c & -> & _)|((ds & _ & [(-> & _)|(-> & _)]) & _)]; cbn; eauto. Qed.
Lemma scan_escape : scan no_character (alt echar uchar) (either ECHAR UCHAR).
Proof. apply scan_alt; [apply scan_echar; auto with lex|apply scan_uchar|apply echar_uchar]. Qed.
Lemma scan_string_char : forall stop, In 92 stop -> scan no_character (string_char stop) (char_but stop).
Proof.
  intros stop H. apply scan_alt; [apply scan_satisfy; intros c; apply not_among|apply scan_escape|].
  intros w1 r1 w2 r2 v1 v2 E (-> & N) K. apply escape_first in K. destruct K as (s & ->). cbn in E. injection E as -> E. exact (N H).
Qed.
Lemma char_but_proper : forall stop, proper (char_but stop).
Proof. intros stop w v [(-> & _)|H]; [discriminate|]. apply escape_first in H. destruct H as (s & ->). discriminate. Qed.
Lemma char_but_first : forall stop w v, In 92 stop -> char_but stop w v -> exists c s, w = c :: s /\ (c = 92 \/ ~ In c stop).
Proof. intros stop w v H [(-> & N)|K]; [eauto|]. apply escape_first in K. destruct K as (s & ->). eauto. Qed.

(** * Strings *)

Lemma scan_delimited : forall A (q : str) (p : parser A) L, scan no_character p L -> proper L -> q <> [] ->
  (forall w v c, L w v -> hd_error w = Some c -> hd_error q <> Some c) ->
  scan no_character (delimited q (many0 p)) (between q (star L) q).
Proof.
  intros A q p L S Pr Hq D. unfold delimited.
  eapply scan_equiv; [|apply scan_bind; [auto with lex|apply (scan_tag _ q)|intros a; apply scan_until; [auto with lex|exact S|apply (scan_tag _ q)|exact Pr|]]].
  - intros w v. cbn beta. unfold between. split.
    + intros (w1 & w2 & a & -> & (-> & _) & u1 & u2 & x & -> & St & (-> & _)). exists u1. auto.
    + intros (m & -> & St). exists q, (m ++ q), q. split; [reflexivity|split; [auto|]]. exists m, q, q. auto.
  - intros w1 r1 w2 r2 v1 v2 E Lw (-> & _). destruct w1 as [|c w1]; [exact (Pr _ _ Lw eq_refl)|].
    destruct q as [|d q]; [congruence|]. cbn in E. injection E as -> E. apply (D _ _ d Lw); reflexivity.
Qed.
Lemma scan_literal1 : scan no_character string_literal1 STRING_LITERAL1.
Proof.
  apply scan_delimited; [apply scan_string_char; cbn; tauto|apply char_but_proper|discriminate|].
  intros w v c H E E2. apply char_but_first in H; [|cbn; tauto]. destruct H as (d & s & -> & [->|H]); cbn in *; [congruence|].
  injection E as ->. injection E2 as <-. apply H. cbn. tauto.
Qed.
Lemma cut_many : forall A bad (p : parser A) L i, onward bad -> scan bad p L -> proper L -> cut (many0 p) i = many0 p i.
Proof. intros A bad p L i On S Pr. unfold cut. pose proof (many0_spec _ _ _ _ i On S Pr) as H. destruct (many0 p i); [reflexivity|destruct H|destruct H|reflexivity]. Qed.
Lemma delimited_cut : forall A bad q (p : parser A) L i, onward bad -> scan bad p L -> proper L ->
  delimited q (many0 p) i = delimited q (cut (many0 p)) i.
Proof.
  intros A bad q p L i On S Pr. unfold delimited. destruct (tag q i) as [v r| | |]; try reflexivity. cbn [bind].
  rewrite (cut_many _ _ _ _ _ On S Pr). reflexivity.
Qed.
Lemma scan_literal2 : scan no_character string_literal2 STRING_LITERAL2.
Proof.
  eapply scan_ext; [intros i; eapply delimited_cut; [apply no_character_on|apply scan_string_char; cbn; tauto|apply char_but_proper]|].
  apply scan_delimited; [apply scan_string_char; cbn; tauto|apply char_but_proper|discriminate|].
  intros w v c H E E2. apply char_but_first in H; [|cbn; tauto]. destruct H as (d & s & -> & [->|H]); cbn in *; [congruence|].
  injection E as ->. injection E2 as <-. apply H. cbn. tauto.
Qed.
Lemma long_plain : forall q w v, long 0 q w v <-> between [q; q; q] (star (char_but [q; 92])) [q; q; q] w v.
Proof.
  assert (K : forall q m vs, star (quoted 0 q) m vs <-> exists v, vs = map (fun c => [c]) v /\ star (char_but [q; 92]) m v).
  { intros q m vs. split.
    - induction 1 as [|w v ws vs (k & u & c & Hk & -> & -> & H) St (v' & -> & IH)]; [exists []; split; [reflexivity|constructor]|].
      assert (k = 0)%nat as -> by lia. exists (c :: v'). split; [reflexivity|]. cbn. constructor; assumption.
    - intros (v & -> & St). induction St as [|w c ws vs H St IH]; [constructor|]. cbn. constructor; [|exact IH].
      exists 0%nat, w, c. auto. }
  assert (C : forall v : str, concat (map (fun c => [c]) v) = v) by (induction v as [|c v IH]; cbn; [reflexivity|f_equal; exact IH]).
  intros q w v. unfold long, between. split.
  - intros (vs & -> & m & -> & St). exists m. split; [reflexivity|]. apply K in St. destruct St as (v & -> & St). rewrite C. exact St.
  - intros (m & -> & St). exists (map (fun c => [c]) v). split; [symmetry; apply C|]. exists m. split; [reflexivity|]. apply K. eauto.
Qed.
Lemma scan_long : forall q, q <> 92 -> scan no_character (delimited [q; q; q] (cut (many0 (string_char [q; 92])))) (long 0 q).
Proof.
  intros q Hq. eapply scan_equiv; [intros w v; symmetry; apply long_plain|].
  eapply scan_ext; [intros i; eapply delimited_cut; [apply no_character_on|apply scan_string_char; cbn; tauto|apply char_but_proper]|].
  apply scan_delimited; [apply scan_string_char; cbn; tauto|apply char_but_proper|discriminate|].
  intros w v c H E E2. apply char_but_first in H; [|cbn; tauto]. destruct H as (d & s & -> & [->|H]); cbn in *; [congruence|].
  injection E as ->. injection E2 as <-. apply H. cbn. tauto.
Qed.
Lemma long_first : forall n q w v, long n q w v -> exists m, w = q :: q :: q :: m ++ [q; q; q].
Proof. intros n q w v (vs & _ & m & -> & _). cbn. eauto. Qed.
Lemma short_after : forall q w v r, q <> 92 -> between [q] (star (char_but [q; 92; 10; 13])) [q] w v ->
  forall m, w ++ r = q :: q :: m -> w = [q; q] /\ r = m.
Proof.
  intros q w v r Hq (u & -> & St) m E. destruct St as [|x c xs vs H St].
  - cbn in E. injection E as ->. auto.
  - exfalso. apply char_but_first in H; [|cbn; tauto]. destruct H as (d & s & -> & H). cbn in E. injection E as -> E.
    destruct H as [->|H]; [congruence|]. apply H. cbn. tauto.
Qed.
Theorem reads_string : reads no_character string (strings 0).
Proof.
  unfold string, strings.
  eapply reads_equiv with (L := either (long 0 39) (either (long 0 34) (either STRING_LITERAL1 STRING_LITERAL2))).
  { intros w v. unfold either. tauto. }
  apply reads_alt; [apply reads_scan, scan_long; discriminate|apply reads_alt; [apply reads_scan, scan_long; discriminate|apply reads_alt|..]|..].
  - apply reads_scan, scan_literal1.
  - apply reads_scan, scan_literal2.
  - intros w1 r1 w2 r2 v1 v2 E (m & -> & _) (m' & -> & _). cbn in E. discriminate.
  - intros i E. pose proof (scan_literal1 i) as S. rewrite E in S. destruct S.
  - intros w1 r1 w2 r2 v1 v2 E H [(m' & -> & _)|K]; apply long_first in H; destruct H as (m & ->); [cbn in E; discriminate|].
    symmetry in E. cbn [app] in E. destruct (short_after 34 w2 v2 r2 ltac:(discriminate) K _ E) as (-> & _). cbn. lia.
  - intros i E. pose proof (scan_long 34 ltac:(discriminate) i) as S. unfold string_literal_long2 in E. rewrite E in S. destruct S.
  - intros w1 r1 w2 r2 v1 v2 E H K; apply long_first in H; destruct H as (m & ->).
    destruct K as [K|[K|(m' & -> & _)]]; [apply long_first in K; destruct K as (m' & ->); cbn in E; discriminate| |cbn in E; discriminate].
    symmetry in E. cbn [app] in E. destruct (short_after 39 w2 v2 r2 ltac:(discriminate) K _ E) as (-> & _). cbn. lia.
  - intros i E. pose proof (scan_long 39 ltac:(discriminate) i) as S. unfold string_literal_long1 in E. rewrite E in S. destruct S.
Qed.

(** * IRIs and prefixes *)

Lemma iri_char_iff : forall c, is_iri_ref c = true <-> 32 < c /\ ~ In c [60; 62; 34; 123; 125; 124; 94; 96; 92].
Proof. intros c. unfold is_iri_ref. rewrite andb_true_iff, N.ltb_lt, not_among. tauto. Qed.
Lemma uchar_first : forall w v, UCHAR w v -> exists s, w = 92 :: s.
Proof. intros w v H. apply (escape_first w v). right. exact H. Qed.
Lemma scan_iri_char : scan no_character (alt (satisfy is_iri_ref) uchar)
  (either (one (fun c => 32 < c /\ ~ In c [60; 62; 34; 123; 125; 124; 94; 96; 92])) UCHAR).
Proof.
  apply scan_alt; [apply scan_satisfy, iri_char_iff|apply scan_uchar|].
  intros w1 r1 w2 r2 v1 v2 E (-> & _ & N) K. apply uchar_first in K. destruct K as (s & ->). cbn in E. injection E as -> E.
  apply N. cbn. tauto.
Qed.
Lemma iri_char_proper : proper (either (one (fun c => 32 < c /\ ~ In c [60; 62; 34; 123; 125; 124; 94; 96; 92])) UCHAR).
Proof. intros w v [(-> & _)|H]; [discriminate|]. apply uchar_first in H. destruct H as (s & ->). discriminate. Qed.
Theorem scan_iri_ref : scan no_character iri_ref IRIREF.
Proof.
  unfold iri_ref. eapply scan_equiv;
    [|apply scan_bind; [auto with lex|apply scan_is|intros a; apply scan_until; [auto with lex|apply scan_iri_char|apply scan_is|apply iri_char_proper|]]].
  - intros w v. unfold IRIREF, between. split.
    + intros (w1 & w2 & a & -> & (-> & _) & u1 & u2 & x & -> & St & (-> & _)). exists u1. auto.
    + intros (m & -> & St). exists [60], (m ++ [62]), 60. split; [reflexivity|split; [auto|]]. exists m, [62], 62. auto.
  - intros w1 r1 w2 r2 v1 v2 E H (-> & _). destruct H as [(-> & _ & N)|H].
    + cbn in E. injection E as -> E. apply N. cbn. tauto.
    + apply uchar_first in H. destruct H as (s & ->). discriminate.
Qed.
