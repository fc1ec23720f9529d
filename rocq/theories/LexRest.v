(** White space, regular expressions, code, and printing. *)
From Coq Require Import List NArith ZArith Bool Lia.
From Verif Require Import LexModel LexSpec LexCore LexLemmas LexNames LexPn LexLocal LexIri.
Import ListNotations.
Local Open Scope N_scope.

(** * White space *)

Lemma take_until_spec : forall i,
  (exists w r, take_until [42; 47] i = Ok w ([42; 47] ++ r) /\ i = w ++ [42; 47] ++ r /\ forall a b, w ++ [42] <> a ++ [42; 47] ++ b) \/
  take_until [42; 47] i = Err /\ forall a b, i <> a ++ [42; 47] ++ b.
Proof.
  induction i as [|c i IH].
  - right. split; [reflexivity|]. intros [|x a] b; discriminate.
  - destruct (tag_spec [42; 47] (c :: i)) as [(r & E & T)|(T & No)].
    + left. exists [], r. cbn [take_until]. rewrite T. cbn in E. injection E as -> ->. split; [reflexivity|split; [reflexivity|]].
      intros [|x [|y a]] b; discriminate.
    + cbn [take_until]. rewrite T. unfold pmap. destruct IH as [(w & r & -> & -> & Nw)|(-> & Ni)].
      * left. exists (c :: w), r. split; [reflexivity|split; [reflexivity|]]. intros [|x a] b E.
        -- cbn in E. injection E as -> E. destruct w as [|y w]; [discriminate|]. cbn in E. injection E as -> E. apply (No (w ++ 42 :: 47 :: r)). reflexivity.
        -- cbn in E. injection E as _ E. exact (Nw a b E).
      * right. split; [reflexivity|]. intros [|x a] b E.
        -- apply (No b). exact E.
        -- cbn in E. injection E as _ E. exact (Ni a b E).
Qed.
Lemma space_iff : forall c, is_space c = true <-> In c [32; 9; 13; 10].
Proof. intros c. unfold is_space. rewrite !orb_true_iff, !N.eqb_eq. cbn. intuition. Qed.
Lemma eol_iff : forall c, negb (line_end c) = true <-> ~ eol c.
Proof. intros c. unfold line_end, eol. rewrite negb_true_iff, orb_false_iff, !N.eqb_neq. tauto. Qed.
Lemma skip_trans : forall i j r, skip i j -> skip j r -> skip i r.
Proof. intros i j r H K. induction H as [|c i j H _ IH|w i j F E _ IH|w i j No _ IH]; [exact K|..]; [apply skip_space|apply skip_line|apply skip_block]; auto. Qed.
Lemma skip_spaces : forall w i r, Forall (fun c => In c [32; 9; 13; 10]) w -> skip i r -> skip (w ++ i) r.
Proof. intros w i r F H. induction F as [|c w Hc _ IH]; [exact H|]. cbn. apply skip_space; assumption. Qed.
Lemma stops_eol : forall i, stops (fun c => ~ eol c) i -> i = [] \/ exists c j, i = c :: j /\ eol c.
Proof.
  intros [|c i] St; [auto|]. right. exists c, i. split; [reflexivity|]. unfold eol in *.
  destruct (N.eq_dec c 10); [auto|]. destruct (N.eq_dec c 13); [auto|]. exfalso. apply (St c i eq_refl). tauto.
Qed.
Lemma eol_stops : forall i, i = [] \/ (exists c j, i = c :: j /\ eol c) -> stops (fun c => ~ eol c) i.
Proof. intros i [->|(c & j & -> & H)] d s E K; [discriminate|]. injection E as <- _. exact (K H). Qed.
Definition blank : parser unit := alt (pmap (fun _ => tt) (take_while1 is_space)) comment.
(** One step of skipping; where it takes none there is nothing to skip. *)
Lemma blank_spec : forall i, (exists r, blank i = Ok tt r /\ skip i r /\ (length r < length i)%nat) \/
  blank i = Err /\ forall r, skip i r -> r = i.
Proof.
  intros i. remember (blank i) as x eqn:Ex. unfold blank, alt at 1, pmap at 1 in Ex.
  destruct (take_while1_spec is_space _ space_iff i) as [(w & r & Tw & -> & Ne & F & _)|(Tw & St)]; rewrite Tw in Ex; clear Tw.
  - left. exists r. split; [exact Ex|split; [apply skip_spaces; [exact F|constructor]|]]. rewrite app_length. destruct w; [congruence|cbn; lia].
  - unfold comment, alt at 1 in Ex. destruct (tag_spec [35] i) as [(j & E & T)|(T & N35)]; rewrite T in Ex; cbn [bind] in Ex.
    + unfold pmap at 1 in Ex. destruct (take_while1_spec _ _ eol_iff j) as [(w & r & Tw & -> & Ne & F & Sr)|(Tw & Sj)]; rewrite Tw in Ex.
      * left. exists r. split; [exact Ex|split]; subst i.
        -- apply (skip_line w); [exact F|apply stops_eol, Sr|constructor].
        -- cbn. rewrite app_length. lia.
      * unfold alt, pmap in Ex. rewrite T in Ex. left. exists j. split; [exact Ex|]. subst i. split; [|cbn; lia].
        apply (skip_line []); [constructor|apply stops_eol, Sj|constructor].
    + unfold alt, pmap at 1 in Ex. rewrite T in Ex. unfold multi_comment in Ex.
      destruct (tag_spec [47; 42] i) as [(j & E & T2)|(T2 & Nc)]; rewrite T2 in Ex; cbn [bind] in Ex.
      * destruct (take_until_spec j) as [(w & r & Tu & -> & Nw)|(Tu & Nj)]; rewrite Tu in Ex; cbn [bind] in Ex.
        -- unfold pmap in Ex. rewrite tag_app in Ex. left. exists r. split; [exact Ex|]. subst i. split; [apply skip_block; [exact Nw|constructor]|].
           rewrite !app_length. cbn [length]. unfold str, char in *. lia.
        -- right. split; [exact Ex|]. intros r H. destruct H as [k|c k r H _|w k r F Ek _|w k r No _]; [reflexivity|..]; exfalso.
           ++ exact (St c k eq_refl H).
           ++ exact (N35 _ eq_refl).
           ++ apply app_inv_head in E. exact (Nj w k (eq_sym E)).
      * right. split; [exact Ex|]. intros r H. destruct H as [k|c k r H _|w k r F Ek _|w k r No _]; [reflexivity|..]; exfalso.
        ++ exact (St c k eq_refl H).
        ++ exact (N35 _ eq_refl).
        ++ exact (Nc _ eq_refl).
Qed.
Lemma many_blank : forall n i, (length i < n)%nat -> exists us r, many n blank i = Ok us r /\ skipped i r.
Proof.
  induction n as [|n IH]; intros i H; [lia|]. cbn [many]. destruct (blank_spec i) as [(r & -> & Sk & Hl)|(-> & No)].
  - destruct (Nat.eqb_spec (length r) (length i)); [lia|]. destruct (IH r ltac:(lia)) as (us & r2 & E & Sk2 & No). unfold pmap. rewrite E.
    exists (tt :: us), r2. split; [reflexivity|]. split; [eapply skip_trans; eassumption|exact No].
  - exists [], i. split; [reflexivity|]. split; [constructor|exact No].
Qed.
Lemma tws0_total : forall i, exists r, tws0 i = Ok tt r /\ skipped i r.
Proof.
  intros i. destruct (many_blank (S (length i)) i ltac:(lia)) as (us & r & E & Sk). exists r. unfold tws0, many0. unfold pmap at 1.
  change (alt (pmap (fun _ => tt) (take_while1 is_space)) comment) with blank. rewrite E. auto.
Qed.
Lemma first_star_slash : forall w w' r r', w ++ [42; 47] ++ r = w' ++ [42; 47] ++ r' ->
  (forall a b, w ++ [42] <> a ++ [42; 47] ++ b) -> (forall a b, w' ++ [42] <> a ++ [42; 47] ++ b) -> w = w' /\ r = r'.
Proof.
  assert (K : forall w w' r r', w ++ [42; 47] ++ r = w' ++ [42; 47] ++ r' -> (forall a b, w' ++ [42] <> a ++ [42; 47] ++ b) -> (length w' <= length w)%nat).
  { intros w w' r r' E N. destruct (Nat.le_gt_cases (length w') (length w)) as [H|H]; [exact H|exfalso].
    destruct (app_short w w' ([42; 47] ++ r) ([42; 47] ++ r') E (Nat.lt_le_incl _ _ H)) as (m & -> & Em). destruct m as [|x m]; [rewrite app_nil_r in H; exact (Nat.lt_irrefl _ H)|].
    cbn in Em. injection Em as <- Em. destruct m as [|y m].
    - cbn in Em. discriminate.
    - cbn in Em. injection Em as <- _. apply (N w (m ++ [42])). rewrite <- app_assoc. reflexivity. }
  intros w w' r r' E N N'. pose proof (K _ _ _ _ E N'). pose proof (K _ _ _ _ (eq_sym E) N).
  destruct (app_cancel w w' ([42; 47] ++ r) ([42; 47] ++ r') E ltac:(unfold str, char in *; lia)) as (-> & E2). apply app_inv_head in E2. auto.
Qed.
Lemma skip_join : forall i r1, skip i r1 -> forall r2, skip i r2 -> (forall r, skip r2 r -> r = r2) -> skip r1 r2.
Proof.
  intros i r1 H. induction H as [i|c i r1 Hc H IH|w i r1 F E H IH|w i r1 N H IH]; intros r2 K St.
  - exact K.
  - apply IH; [|exact St]. inversion K as [k|c' k r Hc' K'|w' k r F' E' K'|w' k r N' K']; subst.
    + exfalso. pose proof (St i (skip_space c i i Hc (skip_done i))) as E. apply (f_equal (@length _)) in E. cbn in E. lia.
    + exact K'.
    + cbn in Hc. intuition discriminate.
    + cbn in Hc. intuition discriminate.
  - apply IH; [|exact St]. inversion K as [k|c' k r Hc' K'|w' k r F' E' K'|w' k r N' K']; subst.
    + exfalso. pose proof (St i (skip_line w i i F E (skip_done i))) as E2. apply (f_equal (@length _)) in E2. cbn in E2. rewrite app_length in E2. lia.
    + cbn in Hc'. intuition discriminate.
    + match goal with E0 : _ ++ _ = _ ++ _ |- _ => destruct (run_unique _ _ _ _ _ E0 F' F (eol_stops _ E') (eol_stops _ E)) as (-> & ->) end. exact K'.
  - apply IH; [|exact St]. inversion K as [k|c' k r Hc' K'|w' k r F' E' K'|w' k r N' K']; subst.
    + exfalso. pose proof (St i (skip_block w i i N (skip_done i))) as E2. apply (f_equal (@length _)) in E2. rewrite !app_length in E2. cbn [length] in E2. unfold str, char in *. lia.
    + cbn in Hc'. intuition discriminate.
    + match goal with E : _ ++ 42 :: 47 :: _ = _ ++ 42 :: 47 :: _ |- _ => destruct (first_star_slash w' w k i E N' N) as (-> & ->) end. exact K'.
Qed.
Lemma skipped_one : forall i r r', skipped i r -> skipped i r' -> r = r'.
Proof. intros i r r' (H & St) (H' & St'). symmetry. apply St. eapply skip_join; eassumption. Qed.
Theorem tws0_skips : forall i r, tws0 i = Ok tt r <-> skipped i r.
Proof.
  intros i r. destruct (tws0_total i) as (r' & E & Sk). rewrite E. split.
  - intros H. injection H as <-. exact Sk.
  - intros H. rewrite (skipped_one _ _ _ H Sk). reflexivity.
Qed.

(** * Code *)

Lemma code_char_first : forall w v, CODE_CHAR w v -> exists c s, w = c :: s /\ c <> 37.
Proof.
  intros w v [(-> & N & _)|[(-> & _)|H]]; [eauto|exists 92, [v]; split; [reflexivity|discriminate]|].
  apply uchar_first in H. destruct H as (s & ->). exists 92, s. split; [reflexivity|discriminate].
Qed.
Lemma scan_code_char : scan no_character (alt (none_of [37; 92]) (alt escaped_code uchar)) CODE_CHAR.
Proof.
  assert (D : forall w v, either (fun w v => w = [92; v] /\ (v = 37 \/ v = 92)) UCHAR w v -> exists s, w = 92 :: s).
  { intros w v [(-> & _)|H]; [eauto|]. exact (uchar_first _ _ H). }
  apply scan_alt; [apply scan_satisfy|apply scan_alt; [|apply scan_uchar|]|].
  - intros c. rewrite not_among. cbn. intuition.
  - unfold escaped_code. eapply scan_equiv; [|apply scan_bind; [apply no_character_on|apply scan_tag|intros a; apply scan_satisfy; intros c; apply among_In]].
    intros w v. unfold one. cbn [In]. split.
    + intros (w1 & w2 & a & -> & (-> & ->) & -> & H). split; [reflexivity|]. intuition.
    + intros (-> & H). exists [92], [v], [92]. split; [reflexivity|split; [auto|split; [reflexivity|intuition]]].
  - intros w1 r1 w2 r2 v1 v2 E (-> & H1) ((ds & _ & [(-> & _)|(-> & _)]) & _); cbn in E; injection E as -> _; destruct H1; discriminate.
  - intros w1 r1 w2 r2 v1 v2 E (-> & N) H. apply D in H. destruct H as (s & ->). cbn in E. injection E as -> _. apply N. reflexivity.
Qed.
Lemma code_char_proper : proper CODE_CHAR.
Proof. intros w v H. apply code_char_first in H. destruct H as (c & s & -> & _). discriminate. Qed.
Lemma code_str_spec : forall i, match code_str i with
  | Ok vs r => exists w, i = w ++ r /\ star CODE_CHAR w vs /\ (forall w' r' v, r = w' ++ r' -> ~ CODE_CHAR w' v) /\
      (forall w' r' vs', i = w' ++ r' -> star CODE_CHAR w' vs' -> exists m ms, w = w' ++ m /\ vs = vs' ++ ms /\ star CODE_CHAR m ms)
  | Panic => no_character i
  | _ => False
  end.
Proof. intros i. exact (many0_spec _ _ _ _ i no_character_on scan_code_char code_char_proper). Qed.
(** A code ends at a percent sign; white space may come before the bracket. *)
Theorem code_reads : forall i v r, code i = Ok v r ->
  exists m j, i = [123] ++ m ++ [37] ++ j /\ star CODE_CHAR m v /\ skipped j (125 :: r).
Proof.
  intros i v r E. unfold code, is at 1, satisfy at 1 in E. destruct i as [|c i]; [discriminate|].
  destruct (N.eqb_spec 123 c) as [<-|_]; [|discriminate]. cbn [bind] in E.
  assert (C : cut code_str i = code_str i) by exact (cut_many _ _ _ _ i no_character_on scan_code_char code_char_proper). rewrite C in E.
  pose proof (code_str_spec i) as M. destruct (code_str i) as [vs r1| | |]; try discriminate. destruct M as (m & -> & St & _ & _). cbn [bind] in E.
  unfold cut at 1, is at 1, satisfy at 1 in E. destruct r1 as [|c r1]; [discriminate|]. destruct (N.eqb_spec 37 c) as [<-|_]; [|discriminate].
  cbn [bind] in E. destruct (tws0_total r1) as (r2 & T & Sk). rewrite T in E. cbn [bind] in E.
  unfold cut, is, satisfy in E. destruct r2 as [|c r2]; [discriminate|]. destruct (N.eqb_spec 125 c) as [<-|_]; [|discriminate].
  cbn [bind] in E. injection E as <- <-. exists m, r1. auto.
Qed.
Theorem code_read : forall m j v r, star CODE_CHAR m v -> skipped j (125 :: r) -> code ([123] ++ m ++ [37] ++ j) = Ok v r \/ no_character ([123] ++ m ++ [37] ++ j).
Proof.
  intros m j v r St Sk. unfold code. cbn [app]. unfold is at 1, satisfy at 1. cbn [N.eqb Pos.eqb bind]. 
  assert (C : cut code_str (m ++ 37 :: j) = code_str (m ++ 37 :: j)) by exact (cut_many _ _ _ _ _ no_character_on scan_code_char code_char_proper). rewrite C.
  pose proof (code_str_spec (m ++ 37 :: j)) as M. destruct (code_str (m ++ 37 :: j)) as [vs r1| | |]; [|destruct M|destruct M|right; apply (no_character_on [123]), M].
  left. destruct M as (w & E & St' & _ & Pre). destruct (Pre _ _ _ eq_refl St) as (x & xs & -> & -> & Sx).
  assert (x = [] /\ xs = []) as (-> & ->).
  { destruct Sx as [|u y us ys Hu Su]; [auto|exfalso]. rewrite <- !app_assoc in E. apply app_inv_head in E.
    apply code_char_first in Hu. destruct Hu as (c & s & -> & Hc). cbn in E. injection E as <- _. congruence. }
  rewrite app_nil_r in *. apply app_inv_head in E. subst r1. cbn [bind]. unfold cut, is, satisfy. cbn [N.eqb Pos.eqb bind].
  rewrite (proj2 (tws0_skips j (125 :: r)) Sk). cbn [bind N.eqb Pos.eqb]. reflexivity.
Qed.

(** * Regular expressions *)

(** What [pattern] collects. *)
Definition raw_piece : lang str :=
  either (fun w v => exists c, v = [c] /\ one (fun c => ~ In c [47; 92; 10; 13]) w c)
 (either (fun w v => v = w /\ exists c, w = [92; c] /\ In c pattern_escapes) (fun w v => exists c, v = [c] /\ UCHAR w c)).
Definition pattern_piece : parser str :=
  alt (pmap (fun c => [c]) (none_of [47; 92; 10; 13])) (alt escaped_pattern (pmap (fun c => [c]) uchar)).
Lemma raw_first : forall w v, raw_piece w v -> exists c s, w = c :: s /\ ~ In c [47; 10; 13].
Proof.
  intros w v [(c & _ & -> & N)|[(_ & c & -> & _)|(c & _ & H)]].
  - exists c, []. split; [reflexivity|]. intros K. apply N. cbn in *. intuition.
  - exists 92, [c]. split; [reflexivity|]. cbn. intuition discriminate.
  - apply uchar_first in H. destruct H as (s & ->). exists 92, s. split; [reflexivity|]. cbn. intuition discriminate.
Qed.
Lemma raw_proper : proper raw_piece.
Proof. intros w v H. apply raw_first in H. destruct H as (c & s & -> & _). discriminate. Qed.
Lemma scan_pattern_piece : scan no_character pattern_piece raw_piece.
Proof.
  apply scan_alt; [apply scan_pmap, scan_satisfy; intros c; apply not_among|apply scan_alt; [|apply scan_pmap, scan_uchar|]|].
  - unfold escaped_pattern. eapply scan_equiv; [|apply scan_bind; [apply no_character_on|apply scan_tag|intros a; apply scan_pmap, scan_satisfy; intros c; apply among_In]].
    intros w v. unfold one. split.
    + intros (w1 & w2 & a & -> & (-> & ->) & c & -> & -> & H). split; [reflexivity|exists c; split; [reflexivity|exact H]].
    + intros (-> & c & -> & H). exists [92], [c], [92]. split; [reflexivity|split; [auto|]]. exists c. auto.
  - intros w1 r1 w2 r2 v1 v2 E (_ & c & -> & H1) (d & _ & (ds & _ & [(-> & _)|(-> & _)]) & _); cbn in E; injection E as -> _; cbn in H1; intuition discriminate.
  - intros w1 r1 w2 r2 v1 v2 E (c & _ & -> & N) [(_ & d & -> & _)|(d & _ & H)].
    + cbn in E. injection E as -> _. apply N. cbn. tauto.
    + apply uchar_first in H. destruct H as (s & ->). cbn in E. injection E as -> _. apply N. cbn. tauto.
Qed.
(** The pieces, up to the slash. *)
Definition body_w : lang (list str) := fun w vs => exists m, w = m ++ [47] /\ star raw_piece m vs /\ vs <> [].
Definition body_p : parser (list str) := fun i => bind (many1 pattern_piece i) (fun vs i => bind (is 47 i) (fun _ r => Ok vs r)).
Lemma scan_body : scan no_character body_p body_w.
Proof.
  apply scan_ext with (p := fun i => bind (pattern_piece i) (fun v => pmap (cons v) (fun i => bind (many0 pattern_piece i) (fun vs i => bind (is 47 i) (fun _ r => Ok vs r))))).
  { intros i. unfold body_p, many1. destruct (pattern_piece i) as [v r| | |]; cbn [bind]; try reflexivity. unfold pmap.
    destruct (many0 pattern_piece r) as [vs r2| | |]; cbn [bind]; try reflexivity. destruct (is 47 r2); reflexivity. }
  eapply scan_equiv; [|apply scan_bind; [apply no_character_on|apply scan_pattern_piece|intros a; apply scan_pmap, scan_until;
    [apply no_character_on|apply scan_pattern_piece|apply scan_is|apply raw_proper|]]].
  - intros w v. unfold body_w. split.
    + intros (w1 & w2 & a & -> & H & x & -> & u1 & u2 & y & -> & St & (-> & _)). exists (w1 ++ u1).
      split; [apply app_assoc|split; [constructor; assumption|discriminate]].
    + intros (m & -> & St & Ne). destruct St as [|u x us xs Hu Su]; [congruence|]. exists u, (us ++ [47]), x.
      split; [symmetry; apply app_assoc|split; [exact Hu|]]. exists xs. split; [reflexivity|]. exists us, [47], 47. auto.
  - intros w1 r1 w2 r2 v1 v2 E H (-> & _). apply raw_first in H. destruct H as (c & s & -> & N). cbn in E. injection E as -> _. apply N. cbn. tauto.
Qed.
(** The second pass gives the meaning, if no backslash was given by its number. *)
Lemma unescape_plain : forall n c s, c <> 92 -> unescape (S n) (c :: s) = option_map (cons c) (unescape n s).
Proof. intros n c s H. cbn [unescape]. apply N.eqb_neq in H. rewrite H. reflexivity. Qed.
Lemma unescape_kept : forall n c s, In c kept_escapes -> unescape (S n) (92 :: c :: s) = option_map (fun x => 92 :: c :: x) (unescape n s).
Proof. intros n c s H. apply among_In in H. cbn [unescape N.eqb Pos.eqb negb]. rewrite H. reflexivity. Qed.
Lemma unescape_slash : forall n s, unescape (S n) (92 :: 47 :: s) = option_map (cons 47) (unescape n s).
Proof. reflexivity. Qed.
Lemma raw_meaning : forall w v, raw_piece w v -> ~ backslash w -> exists x, regexp_piece (fun _ => True) w x /\
  (forall n s y, unescape n s = Some y -> unescape (S n) (v ++ s) = Some (x ++ y)).
Proof.
  intros w v [(c & -> & -> & N)|[(-> & c & -> & H)|(c & -> & H)]] B.
  - exists [c]. split; [left; exists c; auto|]. intros n s y E. cbn [app]. rewrite unescape_plain; [rewrite E; reflexivity|]. intros ->. apply N. cbn. tauto.
  - exists (if c =? 47 then [c] else [92; c]). split.
    + right; left. exists c. split; [reflexivity|split; [reflexivity|exact H]].
    + intros n s y E. cbn [app]. destruct (N.eqb_spec c 47) as [->|Ne].
      * rewrite unescape_slash, E. reflexivity.
      * rewrite unescape_kept; [rewrite E; reflexivity|]. unfold pattern_escapes, kept_escapes in *. cbn in *.
        repeat (destruct H as [H|H]; [tauto || congruence|]). destruct H.
  - exists [c]. split; [right; right; exists c; auto|]. intros n s y E. cbn [app]. rewrite unescape_plain; [rewrite E; reflexivity|].
    intros ->. apply B. exists [], w, []. split; [rewrite app_nil_r; reflexivity|exact (proj1 H)].
Qed.
Lemma backslash_app : forall a b, ~ backslash (a ++ b) -> ~ backslash a /\ ~ backslash b.
Proof.
  intros a b N. split; intros (x & w & y & -> & H); apply N.
  - exists x, w, (y ++ b). rewrite <- !app_assoc. auto.
  - exists (a ++ x), w, y. rewrite <- !app_assoc. auto.
Qed.
Lemma raw_len : forall w v, raw_piece w v -> (1 <= length v)%nat.
Proof. intros w v [(c & -> & _)|[(-> & c & -> & _)|(c & -> & _)]]; cbn; lia. Qed.
Lemma star_meaning : forall m rs, star raw_piece m rs -> ~ backslash m ->
  exists vs, star (regexp_piece (fun _ => True)) m vs /\ length vs = length rs /\ exists n, (n <= length (concat rs))%nat /\ unescape n (concat rs) = Some (concat vs) /\
    (forall k, unescape (n + k) (concat rs) = Some (concat vs)).
Proof.
  intros m rs St. induction St as [|w v ws rs H St IH]; intros N.
  - exists []. split; [constructor|split; [reflexivity|]]. exists 0%nat. split; [cbn; lia|split; [reflexivity|]]. intros k. destruct k; reflexivity.
  - apply backslash_app in N. destruct N as (N1 & N2). destruct (IH N2) as (vs & Sv & Hl & n & Hn & E & Ek).
    destruct (raw_meaning _ _ H N1) as (x & Hx & U). exists (x :: vs). split; [constructor; assumption|split; [cbn; lia|]].
    exists (S n). pose proof (raw_len _ _ H). cbn [concat]. rewrite app_length. split; [lia|split; [apply U, E|]]. intros k. apply (U (n + k)%nat), Ek.
Qed.
Lemma unescape_body : forall m rs, star raw_piece m rs -> ~ backslash m -> exists vs, star (regexp_piece (fun _ => True)) m vs /\ length vs = length rs /\
  unescape_pattern (concat rs) = Some (concat vs).
Proof.
  intros m rs St N. destruct (star_meaning _ _ St N) as (vs & Sv & Hl & n & Hn & _ & Ek). exists vs. split; [exact Sv|split; [exact Hl|]].
  unfold unescape_pattern. replace (length (concat rs)) with (n + (length (concat rs) - n))%nat by lia. apply Ek.
Qed.
Lemma piece_raw : forall u w v, regexp_piece u w v -> exists r, raw_piece w r.
Proof.
  intros u w v [(c & -> & -> & N)|[(c & -> & _ & H)|(c & _ & H & _)]].
  - exists [c]. left. exists c. split; [reflexivity|split; [reflexivity|exact N]].
  - exists [92; c]. right; left. split; [reflexivity|]. eauto.
  - exists [c]. right; right. eauto.
Qed.
Lemma star_raw : forall u m vs, star (regexp_piece u) m vs -> exists rs, star raw_piece m rs /\ length rs = length vs.
Proof.
  intros u m vs St. induction St as [|w v ws vs H St (rs & IH & Hl)]; [exists []; split; [constructor|reflexivity]|].
  destruct (piece_raw _ _ _ H) as (r & Hr). exists (r :: rs). split; [constructor; assumption|cbn; lia].
Qed.
(** Pieces have one meaning. *)
Lemma free_raw : prefix_free raw_piece.
Proof.
  apply free_either; [|apply free_either|].
  - intros w1 r1 w2 r2 v1 v2 E (c & -> & -> & _) (d & -> & -> & _). cbn in E. injection E as -> _. auto.
  - intros w1 r1 w2 r2 v1 v2 E (-> & c & -> & _) (-> & d & -> & _). cbn in E. injection E as -> _. auto.
  - intros w1 r1 w2 r2 v1 v2 E (c & -> & H) (d & -> & K). destruct (free_uchar _ _ _ _ _ _ E H K) as (-> & ->). auto.
  - intros w1 r1 w2 r2 v1 v2 E (_ & c & -> & H1) (d & _ & (ds & _ & [(-> & _)|(-> & _)]) & _); cbn in E; injection E as -> _; cbn in H1; intuition discriminate.
  - intros w1 r1 w2 r2 v1 v2 E (c & _ & -> & N) [(_ & d & -> & _)|(d & _ & H)].
    + cbn in E. injection E as -> _. apply N. cbn. tauto.
    + apply uchar_first in H. destruct H as (s & ->). cbn in E. injection E as -> _. apply N. cbn. tauto.
Qed.
Lemma regexp_one : forall u w v v', regexp_piece u w v -> regexp_piece u w v' -> v = v'.
Proof.
  intros u w v v' [(c & E1 & E2 & N)|[(c & E1 & E2 & H)|(c & E1 & H & _)]] [(d & E3 & E4 & N')|[(d & E3 & E4 & H')|(d & E3 & H' & _)]].
  - congruence.
  - congruence.
  - apply uchar_first in H'. destruct H' as (s & E5). rewrite E1 in E5. injection E5 as -> _. destruct N. cbn. tauto.
  - congruence.
  - assert (c = d) by congruence. subst d. congruence.
  - exfalso. destruct H' as ((ds & _ & [(E5 & _)|(E5 & _)]) & _); rewrite E1 in E5; injection E5 as -> _; cbn in H; intuition discriminate.
  - apply uchar_first in H. destruct H as (s & E5). rewrite E3 in E5. injection E5 as -> _. destruct N'. cbn. tauto.
  - exfalso. destruct H as ((ds & _ & [(E5 & _)|(E5 & _)]) & _); rewrite E3 in E5; injection E5 as -> _; cbn in H'; intuition discriminate.
  - destruct (free_uchar w [] w [] _ _ eq_refl H H') as (_ & ->). congruence.
Qed.
Lemma free_regexp : forall u, prefix_free (regexp_piece u).
Proof.
  intros u w1 r1 w2 r2 v1 v2 E H1 H2. destruct (piece_raw _ _ _ H1) as (x & Hx), (piece_raw _ _ _ H2) as (y & Hy).
  destruct (free_raw _ _ _ _ _ _ E Hx Hy) as (-> & _). split; [reflexivity|]. exact (regexp_one _ _ _ _ H1 H2).
Qed.
Lemma regexp_not_slash : forall u w v r r', regexp_piece u w v -> w ++ r <> [47] ++ r'.
Proof.
  intros u w v r r' H E. destruct (piece_raw _ _ _ H) as (x & Hx). apply raw_first in Hx. destruct Hx as (c & s & -> & N).
  cbn in E. injection E as -> _. apply N. cbn. tauto.
Qed.
Lemma flag_iff : forall c, among [115; 109; 105; 120] c = true <-> In c [115; 109; 105; 120].
Proof. intros c. apply among_In. Qed.
Lemma flags_spec : forall i, exists f r, flags i = Ok f r /\ i = f ++ r /\ Forall (fun c => In c [115; 109; 105; 120]) f /\
  stops (fun c => In c [115; 109; 105; 120]) r.
Proof. exact (take_while_spec _ _ flag_iff). Qed.
Theorem regexp_reads : forall i, ~ backslash i -> match regexp i with
  | Ok v r => exists w, i = w ++ r /\ (forall v', REGEXP w v' <-> v' = v) /\
                (forall w' r' v', i = w' ++ r' -> REGEXP w' v' -> (length w' <= length w)%nat)
  | Err | Fail => forall w r v, i = w ++ r -> ~ REGEXP w v
  | Panic => no_character i
  end.
Proof.
  intros i B. unfold regexp, is at 1, satisfy at 1. destruct i as [|c i].
  { cbn [bind]. intros w r v E (m & f & vs & -> & _). discriminate. }
  destruct (N.eqb_spec 47 c) as [<-|Nc]; cbn [bind].
  2:{ intros w r v E (m & f & vs & -> & _). cbn in E. injection E as -> _. congruence. }
  assert (Bi : ~ backslash i) by (apply (backslash_app [47] i), B).
  (* what follows, in terms of the pieces *)
  assert (P : forall w r v, 47 :: i = w ++ r -> REGEXP w v -> exists b rs f, body_w b rs /\ i = b ++ f ++ r /\ w = 47 :: b ++ f /\ Forall (fun c => In c [115; 109; 105; 120]) f).
  { intros w r v E (m & f & vs & -> & St & Ne & F & _). cbn in E. injection E as E. destruct (star_raw _ _ _ St) as (rs & Sr & Hl).
    exists (m ++ [47]), rs, f. split; [exists m; split; [reflexivity|split; [exact Sr|intros ->; destruct vs; [congruence|discriminate]]]|].
    split; [rewrite E; rewrite <- !app_assoc; reflexivity|split; [cbn; rewrite <- !app_assoc; reflexivity|exact F]]. }
  pose proof (scan_body i) as S. unfold body_p in S.
  assert (Ep : pattern i = match many1 pattern_piece i with Ok v r => Ok (concat v) r | Err => Err | Fail => Fail | Panic => Panic end) by reflexivity.
  rewrite Ep. clear Ep.
  destruct (many1 pattern_piece i) as [rs r1| | |]; cbn [bind] in S |- *.
  - unfold cut. destruct (is 47 r1) as [x r2| | |]; cbn [bind] in S |- *.
    + destruct S as (b & Eb & Hb & U). 
      destruct (flags_spec r2) as (f & r & Ef & -> & Ff & Sf). rewrite Ef. cbn [bind].
      destruct Hb as (m & -> & St & Ne).
      assert (Bm : ~ backslash m). { rewrite Eb in Bi. rewrite <- app_assoc in Bi. apply backslash_app in Bi. tauto. }
      destruct (unescape_body _ _ St Bm) as (vs & Sv & Hl & Un). rewrite Un.
      assert (Hw : REGEXP (47 :: (m ++ [47]) ++ f) (concat vs, match f with [] => None | _ => Some f end)).
      { exists m, f, vs. split; [cbn; rewrite <- app_assoc; reflexivity|split; [exact Sv|split; [intros ->; destruct rs; [congruence|discriminate]|auto]]]. }
      exists (47 :: (m ++ [47]) ++ f). split; [cbn; rewrite Eb, <- !app_assoc; reflexivity|split].
      * intros v'. split; [|intros ->; exact Hw]. intros (m' & f' & vs' & E & Sv' & _ & _ & ->).
        cbn in E. injection E as E. rewrite <- app_assoc in E.
        destruct (free_until _ _ [47] (free_regexp _) (regexp_not_slash _) _ _ Sv _ _ _ _ Sv' E) as (-> & ->).
        apply app_inv_head in E. injection E as ->. reflexivity.
      * intros w' r' v' E H. destruct (P _ _ _ E H) as (b & rs' & f' & Hb & Ei & -> & Ff').
        destruct (U b (f' ++ r') rs' Ei Hb) as (-> & _). rewrite Eb in Ei. apply app_inv_head in Ei.
        pose proof (run_longest _ _ _ _ _ Ei Ff' Sf). cbn [length]. rewrite !app_length. unfold str, char in *. lia.
    + intros w r v E H. destruct (P _ _ _ E H) as (b & rs' & f & Hb & Ei & _). exact (S _ _ _ Ei Hb).
    + destruct S.
    + apply (no_character_on [47]), S.
  - intros w r v E H. destruct (P _ _ _ E H) as (b & rs' & f & Hb & Ei & _). exact (S _ _ _ Ei Hb).
  - destruct S.
  - apply (no_character_on [47]), S.
Qed.
