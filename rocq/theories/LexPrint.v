(** What the printer writes and the parser reads back. *)
From Coq Require Import List NArith ZArith Bool Lia.
From Verif Require Import LexModel LexSpec LexCore LexLemmas LexNames LexPn LexLocal LexIri LexRest.
Import ListNotations.
Local Open Scope N_scope.

(** Words made of pieces that mean one character are not shorter than what they
    mean, and as long only if every piece is its own meaning. *)
Lemma star_long : forall (L : lang char) (P : char -> Prop), (forall w c, L w c -> (1 <= length w)%nat /\ (length w = 1%nat -> w = [c] /\ P c)) ->
  forall w v, star L w v -> (length v <= length w)%nat /\ (length w = length v -> w = v /\ Forall P v).
Proof.
  intros L P H w v St. induction St as [|w c ws vs Hw St (IH & IH2)]; [split; [lia|auto]|]. destruct (H _ _ Hw) as (H1 & H2).
  cbn [length]. rewrite app_length. split; [unfold str, char in *; lia|]. intros E. destruct (H2 ltac:(unfold str, char in *; lia)) as (-> & Pc).
  destruct (IH2 ltac:(cbn in E; unfold str, char in *; lia)) as (-> & F). auto.
Qed.
Lemma star_plain : forall (L : lang char) (P : char -> Prop), (forall c, P c -> L [c] c) -> forall v, Forall P v -> star L v v.
Proof. intros L P H v F. induction F as [|c v Pc _ IH]; [constructor|]. apply (star_cons L [c] c v v); auto. Qed.
Lemma uchar_len : forall w c, UCHAR w c -> (2 <= length w)%nat.
Proof. intros w c ((ds & _ & [(-> & _)|(-> & _)]) & _); cbn; lia. Qed.
Lemma char_but_len : forall stop w c, char_but stop w c -> (1 <= length w)%nat /\ (length w = 1%nat -> w = [c] /\ ~ In c stop).
Proof.
  intros stop w c [(-> & N)|[(d & -> & _)|H]]; cbn.
  - auto.
  - split; [lia|discriminate].
  - apply uchar_len in H. split; [lia|intros E; unfold str, char in *; lia].
Qed.

(** Reading piece by piece. *)
Lemma many_pieces : forall A (p : parser A) (L : lang A), (forall w v x, L w v -> p (w ++ x) = Ok v x) -> proper L ->
  forall w vs, star L w vs -> forall i n, p i = Err -> (length (w ++ i) < n)%nat -> many n p (w ++ i) = Ok vs i.
Proof.
  intros A p L H Pr w vs St. induction St as [|w v ws vs Hw St IH]; intros i n E Hn.
  - destruct n as [|n]; [lia|]. cbn [app many]. rewrite E. reflexivity.
  - destruct n as [|n]; [lia|]. cbn [many]. rewrite <- app_assoc in *. rewrite (H _ _ _ Hw). pose proof (Pr _ _ Hw) as Ne.
    match goal with |- context [Nat.eqb ?a ?b] => destruct (Nat.eqb_spec a b) as [E2|_] end.
    + exfalso. rewrite (app_length w) in E2. destruct w; [congruence|]. cbn [length] in E2. unfold str, char in *. lia.
    + unfold pmap. rewrite IH; [reflexivity|exact E|]. rewrite (app_length w) in Hn. destruct w; [congruence|]. cbn [length] in Hn. unfold str, char in *. lia.
Qed.
Lemma many0_pieces : forall A (p : parser A) (L : lang A), (forall w v x, L w v -> p (w ++ x) = Ok v x) -> proper L ->
  forall w vs, star L w vs -> forall i, p i = Err -> many0 p (w ++ i) = Ok vs i.
Proof. intros A p L H Pr w vs St i E. apply (many_pieces _ p L H Pr w vs St i _ E). apply Nat.lt_succ_diag_r. Qed.
Lemma many0_plain : forall (p : parser char) (P : char -> Prop), (forall c x, P c -> p (c :: x) = Ok c x) -> forall s i, Forall P s -> p i = Err -> many0 p (s ++ i) = Ok s i.
Proof.
  intros p P H s i F E. apply (many0_pieces _ p (one P)); [|intros w v (-> & _); discriminate| |exact E].
  - intros w v x (-> & Pv). apply H, Pv.
  - apply (star_plain _ P); [|exact F]. intros c Pc. split; [reflexivity|exact Pc].
Qed.
Lemma tag_differs : forall c d t i, c <> d -> tag (c :: t) (d :: i) = Err.
Proof. intros c d t i H. cbn [tag]. destruct (N.eqb_spec c d); [congruence|reflexivity]. Qed.
Lemma none_of_ok : forall stop c x, ~ In c stop -> none_of stop (c :: x) = Ok c x.
Proof. intros stop c x H. apply not_among in H. unfold none_of, satisfy. rewrite H. reflexivity. Qed.

(** * Strings *)

Theorem prints_string : forall s r, (forall x, r <> 34 :: x) ->
  string (pp_string s ++ r) = Ok s r <-> Forall (fun c => ~ In c [34; 92; 10; 13]) s.
Proof.
  intros s r Nr. split; intros H.
  - destruct (reads_ok _ _ _ _ _ _ _ reads_string H) as (w & (E & _) & Hw). apply app_inv_tail in E. subst w. unfold pp_string in Hw.
    assert (K : forall q, long 0 q ([34] ++ s ++ [34]) s -> False).
    { intros q HL. apply long_plain in HL. destruct HL as (m & Em & St). destruct (star_long _ _ (char_but_len _) _ _ St) as (Hl & _).
      apply (f_equal (@length _)) in Em. rewrite !app_length in Em. cbn [length] in Em. unfold str, char in *. lia. }
    destruct Hw as [[HL|HL]|[HL|HL]]; try (destruct (K _ HL)); destruct HL as (m & Em & St).
    + discriminate.
    + cbn in Em. injection Em as Em. apply app_inv_tail in Em. subst m. destruct (star_long _ _ (char_but_len _) _ _ St) as (_ & F). apply F. reflexivity.
  - unfold pp_string. rewrite <- !app_assoc. cbn [app].
    assert (T : tag [34; 34; 34] (34 :: s ++ 34 :: r) = Err).
    { change (pmap (cons 34) (tag [34; 34]) (s ++ 34 :: r) = Err). unfold pmap. destruct s as [|c s]; cbn [app].
      - change (tag [34; 34] (34 :: r)) with (pmap (cons 34) (tag [34]) r). unfold pmap. destruct r as [|d r]; [reflexivity|].
        rewrite tag_differs; [reflexivity|]. intros <-. exact (Nr r eq_refl).
      - inversion H as [|? ? N _]; subst. rewrite tag_differs; [reflexivity|]. intros <-. apply N. cbn. tauto. }
    assert (L2 : string_literal_long2 (34 :: s ++ 34 :: r) = Err) by (unfold string_literal_long2, delimited; refine (eq_trans (f_equal (fun x => bind x _) T) eq_refl)).
    assert (M : many0 (string_char [34; 92; 10; 13]) (s ++ 34 :: r) = Ok s (34 :: r)).
    { apply (many0_plain _ (fun c => ~ In c [34; 92; 10; 13])); [|exact H|reflexivity].
      intros c x N. unfold string_char, alt. rewrite (none_of_ok _ _ _ N). reflexivity. }
    assert (G : forall i, string_literal_long1 i = Err -> string_literal_long2 i = Err -> string_literal1 i = Err -> string i = string_literal2 i)
      by (intros i E1 E2 E3; unfold string, alt; rewrite E1, E2, E3; reflexivity).
    refine (eq_trans (G (34 :: s ++ 34 :: r) eq_refl L2 eq_refl) _).
    change (bind (cut (many0 (string_char [34; 92; 10; 13])) (s ++ 34 :: r)) (fun v i => bind (tag [34] i) (fun _ r => Ok v r)) = Ok s r).
    unfold cut. rewrite M. reflexivity.
Qed.

(** * IRIs *)

Theorem prints_iri : forall s r, iri_ref (pp_iri s ++ r) = Ok s r <->
  Forall (fun c => 32 < c /\ ~ In c [60; 62; 34; 123; 125; 124; 94; 96; 92]) s.
Proof.
  intros s r. split; intros H.
  - pose proof (scan_iri_ref (pp_iri s ++ r)) as S. rewrite H in S. destruct S as (w & E & Hw & _). apply app_inv_tail in E. subst w.
    destruct Hw as (m & Em & St). unfold pp_iri in Em. cbn in Em. injection Em as Em. apply app_inv_tail in Em. subst m.
    eapply (proj2 (star_long _ _ _ _ _ St) eq_refl).
    Unshelve. intros w c [(-> & N)|K]; cbn; [auto|]. apply uchar_len in K. split; [lia|intros E; unfold str, char in *; lia].
  - unfold pp_iri. rewrite <- !app_assoc. cbn [app]. unfold iri_ref, is at 1, satisfy at 1. cbn [N.eqb Pos.eqb bind].
    rewrite (many0_plain _ (fun c => 32 < c /\ ~ In c [60; 62; 34; 123; 125; 124; 94; 96; 92])); [reflexivity| |exact H|reflexivity].
    intros c x Hc. unfold alt, satisfy. rewrite (proj2 (iri_char_iff c) Hc). reflexivity.
Qed.

(** * Code *)

Lemma skip_len : forall i r, skip i r -> (length r <= length i)%nat.
Proof.
  intros i r Sk. induction Sk as [i|c i r _ _ IH|w i r _ _ _ IH|w i r _ _ IH]; [lia|..]; cbn [app length]; rewrite ?app_length; cbn [length]; unfold str, char in *; lia.
Qed.
Theorem prints_code : forall s r, code (pp_code s ++ r) = Ok s r <-> Forall (fun c => c <> 37 /\ c <> 92) s.
Proof.
  intros s r. split; intros H.
  - apply code_reads in H. destruct H as (m & j & E & St & (Sk & _)).
    apply skip_len in Sk.
    assert (Pl : forall w c, CODE_CHAR w c -> (1 <= length w)%nat /\ (length w = 1%nat -> w = [c] /\ c <> 37 /\ c <> 92)).
    { intros w c [(-> & N)|[(-> & _)|K]]; cbn; [auto|split; [lia|discriminate]|]. apply uchar_len in K. split; [lia|intros E2; unfold str, char in *; lia]. }
    destruct (star_long _ _ Pl _ _ St) as (Hm & F). apply F.
    apply (f_equal (@length _)) in E. unfold pp_code in E. rewrite !app_length in E. cbn [length] in *. unfold str, char in *. lia.
  - unfold pp_code. rewrite <- !app_assoc. cbn [app]. unfold code, is at 1, satisfy at 1. cbn [N.eqb Pos.eqb bind].
    assert (C : code_str (s ++ 37 :: 125 :: r) = Ok s (37 :: 125 :: r)).
    { apply (many0_plain _ (fun c => c <> 37 /\ c <> 92)); [|exact H|reflexivity].
      intros c x (N1 & N2). unfold alt. rewrite none_of_ok; [reflexivity|]. cbn. intuition. }
    assert (C' : cut code_str (s ++ 37 :: 125 :: r) = Ok s (37 :: 125 :: r)) by (unfold cut; rewrite C; reflexivity).
    refine (eq_trans (f_equal (fun x => bind x _) C') _). unfold cut, is, satisfy. cbn [N.eqb Pos.eqb bind].
    assert (T : tws0 (125 :: r) = Ok tt (125 :: r)) by reflexivity. rewrite T. cbn [bind N.eqb Pos.eqb]. reflexivity.
Qed.

(** * Regular expressions *)

Lemma unescape_len : forall n s y, unescape n s = Some y -> (length y <= length s)%nat.
Proof.
  induction n as [|n IH]; intros s y E; cbn [unescape] in E.
  - injection E as <-. cbn. lia.
  - destruct s as [|c s]; [injection E as <-; cbn; lia|]. destruct (negb (c =? 92)).
    + destruct (unescape n s) as [z|] eqn:Ez; [|discriminate]. cbn in E. injection E as <-. apply IH in Ez. cbn. lia.
    + destruct s as [|d s]; [discriminate|]. destruct (among kept_escapes d); [|destruct (d =? 117); [|destruct (d =? 85)]].
      * destruct (unescape n s) as [z|] eqn:Ez; [|discriminate]. cbn in E. injection E as <-. apply IH in Ez. cbn. lia.
      * do 4 (destruct s as [|? s]; [discriminate|]). cbn [take_n] in E. destruct (from_str_radix _) as [u|]; [|discriminate].
        destruct (scalar u); [|discriminate]. destruct (unescape n s) as [z|] eqn:Ez; [|discriminate]. cbn in E. injection E as <-. apply IH in Ez. cbn. lia.
      * do 8 (destruct s as [|? s]; [discriminate|]). cbn [take_n] in E. destruct (from_str_radix _) as [u|]; [|discriminate].
        destruct (scalar u); [|discriminate]. destruct (unescape n s) as [z|] eqn:Ez; [|discriminate]. cbn in E. injection E as <-. apply IH in Ez. cbn. lia.
      * destruct (unescape n s) as [z|] eqn:Ez; [|discriminate]. cbn in E. injection E as <-. apply IH in Ez. cbn. lia.
Qed.
Lemma raw_shrinks : forall m rs, star raw_piece m rs -> (length (concat rs) <= length m)%nat /\
  (length (concat rs) = length m -> concat rs = m /\ exists vs, star (regexp_piece (fun _ => False)) m vs /\
     (forall k, unescape (length rs + k) (concat rs) = Some (concat vs)) /\ (length (concat vs) <= length m)%nat /\
     (length (concat vs) = length m -> star kept_piece m vs)).
Proof.
  intros m rs St. induction St as [|w v ws rs H St (IH & IH2)]; cbn [concat length].
  - split; [lia|]. intros _. split; [reflexivity|]. exists []. split; [constructor|split; [intros k; destruct k; reflexivity|split; [cbn; lia|intros _; constructor]]].
  - assert (Hl : (length v <= length w)%nat).
    { destruct H as [(c & -> & -> & _)|[(-> & _)|(c & -> & K)]]; cbn; [lia|lia|apply uchar_len in K; unfold str, char in *; lia]. }
    rewrite !app_length. split; [unfold str, char in *; lia|]. intros E.
    destruct (IH2 ltac:(unfold str, char in *; lia)) as (Ec & vs & Sv & Un & Hv & Kv).
    assert (Eq : length v = length w) by (unfold str, char in *; lia).
    assert (P : v = w /\ exists x, regexp_piece (fun _ => False) w x /\ (length x <= length w)%nat /\ (length x = length w -> kept_piece w x) /\
      forall n s y, unescape n s = Some y -> unescape (S n) (v ++ s) = Some (x ++ y)).
    { destruct H as [(c & -> & -> & N)|[(-> & c & -> & H)|(c & -> & K)]].
      - split; [reflexivity|]. exists [c]. split; [left; exists c; auto|split; [cbn; lia|split]].
        + intros _. split; [reflexivity|]. exists c. left. auto.
        + intros n s y Es. cbn [app]. rewrite unescape_plain; [rewrite Es; reflexivity|]. intros ->. apply N. cbn. tauto.
      - split; [reflexivity|]. exists (if c =? 47 then [c] else [92; c]). split; [right; left; exists c; auto|].
        destruct (N.eqb_spec c 47) as [->|Ne]; (split; [cbn; lia|split]).
        + discriminate.
        + intros n s y Es. cbn [app]. rewrite unescape_slash, Es. reflexivity.
        + intros _. split; [reflexivity|]. exists c. right. split; [reflexivity|]. unfold pattern_escapes, kept_escapes in *. cbn in *.
          repeat (destruct H as [H|H]; [tauto || congruence|]). destruct H.
        + intros n s y Es. cbn [app]. rewrite unescape_kept; [rewrite Es; reflexivity|]. unfold pattern_escapes, kept_escapes in *. cbn in *.
          repeat (destruct H as [H|H]; [tauto || congruence|]). destruct H.
      - exfalso. apply uchar_len in K. cbn in Eq. unfold str, char in *. lia. }
    destruct P as (-> & x & Hx & Hxl & Kx & Ux). split; [rewrite Ec; reflexivity|]. exists (x :: vs).
    split; [constructor; assumption|split; [|split]].
    + intros k. cbn [length Nat.add concat]. apply Ux, Un.
    + cbn [concat]. rewrite app_length. unfold str, char in *. lia.
    + cbn [concat]. rewrite app_length. intros E2. constructor; [apply Kx|apply Kv]; unfold str, char in *; lia.
Qed.
Lemma raw_count : forall m rs, star raw_piece m rs -> (length rs <= length (concat rs))%nat.
Proof. intros m rs St. induction St as [|w v ws rs H St IH]; [reflexivity|]. cbn [concat length]. rewrite app_length. apply raw_len in H. unfold str, char in *. lia. Qed.
Lemma regexp_inv : forall i s f r, regexp i = Ok (s, f) r -> exists m rs f', i = [47] ++ m ++ [47] ++ f' ++ r /\ star raw_piece m rs /\ m <> [] /\
  unescape_pattern (concat rs) = Some s /\ f = match f' with [] => None | _ => Some f' end /\ Forall (fun c => In c [115; 109; 105; 120]) f' /\
  stops (fun c => In c [115; 109; 105; 120]) r.
Proof.
  intros i s f r E. unfold regexp, is at 1, satisfy at 1 in E. destruct i as [|c i]; [discriminate|].
  destruct (N.eqb_spec 47 c) as [<-|_]; [|discriminate]. cbn [bind] in E.
  pose proof (scan_body i) as S. unfold body_p in S.
  assert (Ep : pattern i = match many1 pattern_piece i with Ok v r => Ok (concat v) r | Err => Err | Fail => Fail | Panic => Panic end) by reflexivity.
  rewrite Ep in E. clear Ep. destruct (many1 pattern_piece i) as [rs r1| | |]; cbn [bind] in S, E; try discriminate.
  unfold cut in E. destruct (is 47 r1) as [x r2| | |]; cbn [bind] in S, E; try discriminate.
  destruct S as (b & Eb & (m & -> & St & Ne) & _). destruct (flags_spec r2) as (f' & r' & Ef & -> & Ff & Sf). rewrite Ef in E. cbn [bind] in E.
  destruct (unescape_pattern (concat rs)) as [y|] eqn:Ey; [|discriminate]. injection E as -> <- <-.
  exists m, rs, f'. split; [rewrite Eb, <- app_assoc; reflexivity|split; [exact St|split; [|auto]]].
  intros ->. inversion St as [|w v ws vs Hw _ E1 E2]; [congruence|]. apply raw_proper in Hw. destruct w; [congruence|discriminate].
Qed.
Lemma kept_raw : forall s vs, star kept_piece s vs -> star raw_piece s vs /\ concat vs = s.
Proof.
  intros s vs St. induction St as [|w v ws vs (-> & c & H) St (IH & E)]; [split; [constructor|reflexivity]|]. cbn [concat]. rewrite E. split; [|reflexivity].
  constructor; [|exact IH]. destruct H as [(-> & N)|(-> & H)]; [left; exists c; split; [reflexivity|split; [reflexivity|exact N]]|right; left]. split; [reflexivity|]. exists c. split; [reflexivity|].
  unfold pattern_escapes, kept_escapes in *. cbn in *. tauto.
Qed.
Theorem prints_pattern : forall s f r, stops (fun c => In c [115; 109; 105; 120]) r ->
  regexp (pp_pattern (s, f) ++ r) = Ok (s, f) r <-> printable_pattern s /\ printable_flags f.
Proof.
  intros s f r Sr. split.
  - intros H. apply regexp_inv in H. destruct H as (m & rs & f' & E & St & Ne & Un & -> & Ff & _). unfold pp_pattern in E. cbn [fst snd] in E.
    rewrite <- !app_assoc in E. apply app_inv_head in E.
    assert (Hl : length s = length m).
    { clear -E. destruct f' as [|c0 f']; apply (f_equal (@length _)) in E; rewrite !app_length in E; cbn [length] in E; unfold str, char in *; lia. }
    destruct (app_cancel _ _ _ _ E Hl) as (<- & _). destruct (raw_shrinks _ _ St) as (H1 & H2).
    pose proof (unescape_len _ _ _ Un) as H3. destruct (H2 ltac:(unfold str, char in *; lia)) as (Ec & vs & Sv & U & Hv & K).
    assert (Es : Some (concat vs) = Some s).
    { rewrite <- Un. unfold unescape_pattern. pose proof (raw_count _ _ St). replace (length (concat rs)) with (length rs + (length (concat rs) - length rs))%nat by (unfold str, char in *; lia). symmetry. apply U. }
    injection Es as Es. split.
    + split; [exact Ne|]. exists vs. apply K. rewrite Es. reflexivity.
    + destruct f'; [exact Logic.I|]. split; [discriminate|exact Ff].
  - intros ((Ne & vs & St) & Hf). destruct (kept_raw _ _ St) as (Sr' & Ec). unfold pp_pattern. cbn [fst snd]. rewrite <- !app_assoc. cbn [app].
    unfold regexp, is at 1, satisfy at 1. cbn [N.eqb Pos.eqb bind].
    set (fl := match f with Some f => f | None => [] end).
    assert (Pp : pattern (s ++ 47 :: fl ++ r) = Ok s (47 :: fl ++ r)).
    { assert (M : many1 pattern_piece (s ++ 47 :: fl ++ r) = Ok vs (47 :: fl ++ r)).
      { inversion St as [E1 E2|w v ws vs' Hw Sw E1 E2]; subst; [congruence|]. unfold many1. cbn [concat] in *. rewrite <- app_assoc.
        assert (P : forall w v x, kept_piece w v -> pattern_piece (w ++ x) = Ok v x).
        { intros w0 v0 x (-> & c & [(-> & N)|(-> & Hc)]); unfold pattern_piece, alt, pmap; cbn [app].
          - rewrite none_of_ok; [reflexivity|exact N].
          - assert (Hp : among pattern_escapes c = true) by (apply among_In; unfold pattern_escapes, kept_escapes in *; cbn in *; tauto).
            change (none_of [47; 92; 10; 13] (92 :: c :: x)) with (@Err char). cbv iota. unfold escaped_pattern.
            change (tag [92] (92 :: c :: x)) with (Ok [92] (c :: x)). cbn [bind]. unfold pmap, one_of, satisfy. rewrite Hp. reflexivity. }
        rewrite (P _ _ _ Hw). cbn [bind]. unfold pmap.
        rewrite (many0_pieces _ _ kept_piece P) with (vs := vs'); [reflexivity| |exact Sw|reflexivity].
        intros w0 v0 (_ & c & [(-> & _)|(-> & _)]); discriminate. }
      assert (Ep : forall i, pattern i = match many1 pattern_piece i with Ok v r => Ok (concat v) r | Err => Err | Fail => Fail | Panic => Panic end) by reflexivity.
      rewrite Ep, M, Ec. reflexivity. }
    refine (eq_trans (f_equal (fun x => bind x _) Pp) _). cbn [bind]. unfold cut. change (is 47 (47 :: fl ++ r)) with (Ok 47 (fl ++ r)). cbn [bind].
    destruct (flags_spec (fl ++ r)) as (f' & r' & Ef & Ei & Ff & Sf). rewrite Ef. cbn [bind].
    assert (Ffl : Forall (fun c => In c [115; 109; 105; 120]) fl) by (destruct f; [apply Hf|constructor]).
    destruct (run_unique _ _ _ _ _ Ei Ffl Ff Sr Sf) as (<- & <-).
    destruct (raw_shrinks _ _ Sr') as (_ & H2). destruct (H2 (f_equal (@length _) Ec)) as (_ & us & Su & U & _).
    assert (Un : unescape_pattern s = Some s).
    { assert (Eu : concat us = s).
      { clear -St Su. revert us Su. induction St as [|w v ws vs (-> & c & H) St IH]; intros us Su.
        - inversion Su as [E1 E2|w v ws vs Hw Sw E1 E2]; [reflexivity|]. exfalso. destruct (piece_raw _ _ _ Hw) as (x & Hx). apply raw_proper in Hx. destruct w; [congruence|discriminate].
        - inversion Su as [E1 E2|w' v' ws' vs' Hw Sw E1 E2].
          + exfalso. destruct H as [(-> & _)|(-> & _)]; discriminate.
          + assert (Hk : regexp_piece (fun _ => False) w w).
            { destruct H as [(-> & N)|(-> & H)]; [left; exists c; auto|right; left]. exists c. split; [reflexivity|].
              assert (Nc : c <> 47) by (intros ->; cbn in H; intuition discriminate). apply N.eqb_neq in Nc. rewrite Nc. split; [reflexivity|].
              unfold kept_escapes in H. cbn in *. tauto. }
            destruct (free_regexp _ _ _ _ _ _ _ E1 Hw Hk) as (-> & ->). apply app_inv_head in E1. subst ws'. cbn [concat]. rewrite (IH _ Sw). reflexivity. }
      unfold unescape_pattern. pose proof (raw_count _ _ Sr') as Hc. rewrite Ec in Hc, U. rewrite Eu in U.
      replace (length s) with (length vs + (length s - length vs))%nat by (unfold str, char in *; lia). apply U. }
    rewrite Un. f_equal. f_equal. unfold fl. destruct f as [[|c f]|]; [|reflexivity|reflexivity]. destruct Hf as (Hf & _). congruence.
Qed.

(** * Names *)

(** What is read back as the name it was written for is a name of the grammar. *)
Lemma local_itself : forall w v, local_dots keep w v -> v = w.
Proof.
  intros w v (w1 & w2 & a & b & -> & -> & H1 & H2). rewrite (piece_itself _ _ _ H1), (star_itself _ _ _ H2). reflexivity.
Qed.
Theorem prints_name : forall p l r, iri (pp_name p l ++ r) = Ok (Prefixed p l) r ->
  (p = [] \/ PN_PREFIX p) /\ (l = [] \/ local_dots keep l l).
Proof.
  intros p l r H. destruct (reads_ok _ _ _ _ _ _ _ reads_iri H) as (w & (E & _) & Hw). apply app_inv_tail in E. subst w.
  destruct Hw as [(s & E & _)|[(w1 & w2 & a & b & E & E2 & ((-> & Ha) & _) & Hb)|(q & E2 & (E & Hq) & _)]].
  - discriminate.
  - injection E2 as <- <-. split; [exact Ha|right]. rewrite <- (local_itself _ _ Hb) in Hb. exact Hb.
  - injection E2 as <- ->. split; [exact Hq|auto].
Qed.
