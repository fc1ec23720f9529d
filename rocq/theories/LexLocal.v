(** Local names, blank node labels, IRIs and literals. *)
From Coq Require Import List NArith ZArith Bool Lia.
From Verif Require Import LexModel LexSpec LexCore LexLemmas LexNames LexPn.
Import ListNotations.
Local Open Scope N_scope.

Lemma foreign_on : onward foreign.
Proof. intros a i (c & H & K). exists c. split; [apply in_or_app; right; exact H|exact K]. Qed.

Lemma scan_one_if : forall (bad : str -> Prop) f P, (forall c, f c = true <-> P c) -> (forall c i, P c -> 128 <= c -> bad (c :: i)) ->
  scan bad (one_if f) (one P).
Proof.
  intros bad f P H B i. pose proof (scan_satisfy bad f P H i) as S. unfold one_if. destruct i as [|c i]; [exact S|]. cbn in S.
  destruct (f c) eqn:F; [|exact S]. destruct (N.ltb_spec c 128); [exact S|]. apply B; [apply H, F|assumption].
Qed.
Lemma hex_ascii : forall c, (exists d, hex_digit c d) -> c < 128.
Proof. intros c (d & [(H & _)|[(H & _)|(H & _)]]); lia. Qed.
Lemma escapes_ascii : forall c, In c local_escapes -> c < 128.
Proof. intros c H. cbn in H. repeat (destruct H as [<-|H]; [lia|]). destruct H. Qed.
Lemma scan_percent : forall bad, onward bad -> scan bad percent PERCENT.
Proof.
  intros bad On. assert (Hx : scan bad (one_if is_hex) (one (fun c => exists d, hex_digit c d))).
  { apply scan_one_if; [apply hex_iff|]. intros c i H K. apply hex_ascii in H. lia. }
  unfold percent. eapply scan_equiv; [|apply scan_recognize, scan_bind; [exact On|apply scan_is|intros a0;
    apply scan_bind; [exact On|apply Hx|intros a1; apply Hx]]].
  intros w v. unfold PERCENT, itself, one. split.
  - intros (-> & x & w1 & w2 & a & -> & (-> & ->) & u1 & u2 & b & -> & (-> & d & Hd) & (-> & e & He)). split; [reflexivity|].
    exists b, x, d, e. auto.
  - intros (-> & a & b & d & e & -> & Hd & He). split; [reflexivity|]. exists b, [37], [a; b], 37.
    split; [reflexivity|split; [auto|]]. exists [a], [b], a. split; [reflexivity|split; [split; [reflexivity|eauto]|split; [reflexivity|eauto]]].
Qed.
Lemma scan_local_esc : forall bad, onward bad -> scan bad pn_local_esc (PN_LOCAL_ESC keep).
Proof.
  intros bad On. unfold pn_local_esc. eapply scan_equiv; [|apply scan_recognize, scan_bind; [exact On|apply scan_is|intros a0;
    apply scan_one_if; [intros c; apply among_In|intros c i H K; apply escapes_ascii in H; lia]]].
  intros w v. unfold PN_LOCAL_ESC, keep, one. split.
  - intros (-> & x & w1 & w2 & a & -> & (-> & ->) & -> & H). exists x. auto.
  - intros (c & -> & -> & H). split; [reflexivity|]. exists c, [92], [c], 92. auto.
Qed.
Lemma scan_plx : forall bad, onward bad -> scan bad plx (either PERCENT (PN_LOCAL_ESC keep)).
Proof.
  intros bad On. apply scan_alt; [apply scan_percent, On|apply scan_local_esc, On|].
  intros w1 r1 w2 r2 v1 v2 E (_ & a & b & d & e & -> & _) (c & -> & _). discriminate.
Qed.
Lemma plx_first : forall w v, either PERCENT (PN_LOCAL_ESC keep) w v -> exists c s, w = c :: s /\ (c = 37 \/ c = 92).
Proof. intros w v [(_ & a & b & d & e & -> & _)|(c & -> & _)]; eauto. Qed.
Definition single (P : char -> Prop) : lang str := fun w v => exists c, w = [c] /\ v = [c] /\ P c.
Lemma single_plx : forall P, ~ P 37 -> ~ P 92 -> apart (single P) (either PERCENT (PN_LOCAL_ESC keep)).
Proof.
  intros P H H' w1 r1 w2 r2 v1 v2 E (c & -> & _ & Hc) K. apply plx_first in K. destruct K as (d & s & -> & K).
  cbn in E. injection E as -> _. destruct K as [->| ->]; contradiction.
Qed.
Lemma not_start : ~ LOCAL_START 37 /\ ~ LOCAL_START 92.
Proof. rewrite <- !start_iff. split; discriminate. Qed.
Lemma not_local : ~ dot_or LOCAL_CHAR 37 /\ ~ dot_or LOCAL_CHAR 92.
Proof. unfold dot_or. rewrite <- !colon_iff. split; intros [H|H]; discriminate. Qed.
Lemma scan_local_start : scan foreign (alt (recognize (one_if is_pn_local_start)) plx) (piece keep LOCAL_START).
Proof.
  apply scan_alt; [|apply scan_plx, foreign_on|apply single_plx; apply not_start].
  eapply scan_equiv; [|apply scan_recognize, (scan_one_if _ _ _ start_iff); intros c i _ K; exists c; split; [left; reflexivity|exact K]].
  intros w v. unfold one. split; [intros (-> & x & -> & H); eauto|intros (c & -> & -> & H); eauto].
Qed.

(** One piece at a time. *)
Definition local_char (c : char) : bool := (c =? 46) || is_pn_chars_colon c.
Lemma local_char_iff : forall c, local_char c = true <-> dot_or LOCAL_CHAR c.
Proof. intros c. unfold local_char, dot_or. rewrite orb_true_iff, N.eqb_eq, colon_iff. tauto. Qed.
Definition one_piece : parser str := alt (recognize (satisfy local_char)) plx.
Lemma scan_piece : scan never one_piece (piece keep (dot_or LOCAL_CHAR)).
Proof.
  apply scan_alt; [|apply scan_plx, never_on|apply single_plx; apply not_local].
  eapply scan_equiv; [|apply scan_recognize, (scan_satisfy _ _ _ local_char_iff)].
  intros w v. unfold one. split; [intros (-> & x & -> & H); eauto|intros (c & -> & -> & H); eauto].
Qed.
Lemma piece_proper : forall P, proper (piece keep P).
Proof. intros P w v [(c & -> & _)|[(_ & a & b & d & e & -> & _)|(c & -> & _)]]; discriminate. Qed.
Lemma piece_itself : forall P w v, piece keep P w v -> v = w.
Proof. intros P w v [(c & -> & -> & _)|[(-> & _)|(c & -> & -> & _)]]; reflexivity. Qed.
Lemma star_itself : forall P w vs, star (piece keep P) w vs -> concat vs = w.
Proof. intros P w vs St. induction St as [|w v ws vs H St IH]; cbn; [reflexivity|]. rewrite (piece_itself _ _ _ H), IH. reflexivity. Qed.
Lemma star_app : forall A (L : lang A) w vs u us, star L w vs -> star L u us -> star L (w ++ u) (vs ++ us).
Proof. intros A L w vs u us St Su. induction St as [|x v ws xs H St IH]; cbn; [exact Su|]. rewrite <- app_assoc. constructor; assumption. Qed.
Lemma star_chars : forall w, Forall LOCAL_CHAR w -> exists vs, star (piece keep (dot_or LOCAL_CHAR)) w vs.
Proof.
  intros w H. induction H as [|c w Hc Hw (vs & IH)]; [exists []; constructor|]. exists ([c] :: vs).
  apply (star_cons _ [c]); [|exact IH]. left. exists c. split; [reflexivity|split; [reflexivity|right; exact Hc]].
Qed.
(** The pieces of [pn_local3] are runs. *)
Definition run_piece : parser str := alt (take_while1 is_pn_chars_colon) (alt plx (recognize char_dot)).
Lemma run_piece_spec : forall i, match run_piece i with
  | Ok v r => exists w vs, i = w ++ r /\ w <> [] /\ star (piece keep (dot_or LOCAL_CHAR)) w vs
  | Err => forall w r v, i = w ++ r -> ~ piece keep (dot_or LOCAL_CHAR) w v
  | Fail => False
  | Panic => False
  end.
Proof.
  intros i. unfold run_piece, alt at 1.
  destruct (take_while1_spec is_pn_chars_colon LOCAL_CHAR colon_iff i) as [(w & r & -> & -> & Ne & F & _)|(-> & St)].
  - destruct (star_chars w F) as (vs & Sv). exists w, vs. auto.
  - unfold alt. pose proof (scan_plx never never_on i) as S. destruct (plx i) as [v r| | |]; [| |exact S|exact S].
    + destruct S as (w & -> & H & _). exists w, [v]. split; [reflexivity|]. assert (Hp : piece keep (dot_or LOCAL_CHAR) w v) by (right; exact H).
      split; [exact (piece_proper _ _ _ Hp)|]. rewrite <- (app_nil_r w). constructor; [exact Hp|constructor].
    + pose proof (scan_recognize _ never _ _ (scan_is never 46) i) as D. unfold char_dot. destruct (recognize (is 46) i) as [v r| | |]; [| |exact D|destruct D].
      * destruct D as (w & -> & (-> & x & -> & ->) & _). exists [46], [[46]]. split; [reflexivity|split; [discriminate|]].
        apply (star_cons _ [46]); [|constructor]. left. exists 46. split; [reflexivity|split; [reflexivity|left; reflexivity]].
      * intros w r v E [(c & -> & -> & [->|Hc])|H].
        -- apply (D [46] r [46] E). eauto.
        -- cbn in E. exact (St c r E Hc).
        -- exact (S _ _ _ E H).
Qed.
Lemma many_runs : forall n i, (length i < n)%nat -> match many n run_piece i with
  | Ok _ r => exists w vs, i = w ++ r /\ star (piece keep (dot_or LOCAL_CHAR)) w vs /\
                forall w' r' v, r = w' ++ r' -> ~ piece keep (dot_or LOCAL_CHAR) w' v
  | _ => False
  end.
Proof.
  induction n as [|n IH]; intros i H; [lia|]. cbn [many]. pose proof (run_piece_spec i) as S. destruct (run_piece i) as [v r| | |].
  - destruct S as (w & vs & -> & Ne & St). match goal with |- context [Nat.eqb ?a ?b] => destruct (Nat.eqb_spec a b) as [E|E] end.
    + rewrite app_length in E. destruct w; [congruence|cbn in E; lia].
    + unfold pmap. assert (Hr : (length r < n)%nat) by (rewrite app_length in *; lia). specialize (IH r Hr).
      destruct (many n run_piece r) as [xs r2| | |]; [|exact IH|exact IH|exact IH].
      destruct IH as (u & us & -> & Su & No). exists (w ++ u), (vs ++ us). split; [apply app_assoc|split; [apply star_app; assumption|exact No]].
  - exists [], []. split; [reflexivity|split; [constructor|exact S]].
  - exact S.
  - exact S.
Qed.
Lemma reads_local3 : forall bad, reads bad pn_local3 (fun w v => v = w /\ exists vs, star (piece keep (dot_or LOCAL_CHAR)) w vs).
Proof.
  intros bad i. unfold pn_local3, recognize, many0.
  change (alt (take_while1 is_pn_chars_colon) (alt plx (fun i0 => match char_dot i0 with
    | Ok _ r => Ok (used i0 r) r | Err => Err | Fail => Fail | Panic => Panic end))) with run_piece.
  pose proof (many_runs (S (length i)) i ltac:(lia)) as H. destruct (many (S (length i)) run_piece i) as [xs r| | |]; [|destruct H|destruct H|destruct H].
  destruct H as (w & vs & -> & St & No). exists w. rewrite used_app. split; [reflexivity|split; [intros v'; split; [tauto|intros ->; eauto]|]].
  (* the longest: two stars of one text *)
  intros w' r' v' E (_ & us & Su). clear v'. revert w' r' us E Su. induction St as [|x v xs' ys H St IH]; intros w' r' us E Su.
  - destruct Su as [|u y zs us H Su]; [cbn; lia|]. exfalso. rewrite <- app_assoc in E. exact (No _ _ _ E H).
  - destruct Su as [|u y zs us H' Su]; [cbn; lia|]. rewrite <- !app_assoc in E.
    pose proof (scan_piece (x ++ xs' ++ r)) as S. destruct (one_piece (x ++ xs' ++ r)) as [a b| | |].
    + destruct S as (z & Ez & Hz & U). destruct (U _ _ _ eq_refl H) as (-> & _). destruct (U _ _ _ E H') as (-> & _).
      apply app_inv_head in E. pose proof (IH _ _ _ E Su). rewrite !app_length. lia.
    + destruct (S _ _ _ eq_refl H).
    + destruct S.
    + destruct S.
Qed.

(** * Local names *)

Theorem reads_pn_local : reads foreign pn_local (local_dots keep).
Proof.
  unfold pn_local. eapply reads_equiv; [|apply reads_recognize, reads_bind; [apply foreign_on|apply scan_local_start|intros a0; apply reads_local3]].
  intros w v. unfold local_dots, follow. split.
  - intros (-> & x & w1 & w2 & a & -> & H & -> & vs & St). exists w1, w2, a, vs.
    rewrite (piece_itself _ _ _ H), (star_itself _ _ _ St). rewrite (piece_itself _ _ _ H) in H. auto.
  - intros (w1 & w2 & a & vs & -> & -> & H & St). split.
    + rewrite (piece_itself _ _ _ H), (star_itself _ _ _ St). reflexivity.
    + exists w2, w1, w2, a. split; [reflexivity|split; [exact H|split; [reflexivity|eauto]]].
Qed.
Theorem local_panic : forall i, pn_local i = Panic <-> exists c r, i = c :: r /\ LOCAL_START c /\ 128 <= c.
Proof.
  intros i. unfold pn_local, recognize at 1. unfold bind at 1, alt at 1.
  destruct i as [|c i].
  - split; [discriminate|]. intros (c & r & E & _). discriminate.
  - unfold recognize at 1, one_if. destruct (is_pn_local_start c) eqn:Sc; [destruct (N.ltb_spec c 128) as [Hc|Hc]|].
    + pose proof (reads_local3 never i) as R. split.
      * destruct (pn_local3 i); [discriminate..|destruct R].
      * intros (d & r & E & _ & K). injection E as <- _. lia.
    + split; [|reflexivity]. intros _. exists c, i. split; [reflexivity|split; [apply start_iff, Sc|exact Hc]].
    + split.
      * pose proof (scan_plx never never_on (c :: i)) as S. destruct (plx (c :: i)) as [v r| | |]; [|discriminate|discriminate|destruct S].
        pose proof (reads_local3 never r) as R. destruct (pn_local3 r); [discriminate..|destruct R].
      * intros (d & r & E & H & _). injection E as <- _. apply start_iff in H. congruence.
Qed.

(** With the meaning of the grammar, for words without escapes and without a dot behind them. *)
Lemma piece_esc : forall e e' P w v, no_escape w -> piece e P w v -> piece e' P w v.
Proof.
  intros e e' P w v N [H|[H|(c & -> & _)]]; [left; exact H|right; left; exact H|]. exfalso. apply N. left. reflexivity.
Qed.
Lemma no_escape_app : forall a b, no_escape (a ++ b) -> no_escape a /\ no_escape b.
Proof. intros a b H. split; intros K; apply H, in_or_app; auto. Qed.
Lemma star_esc : forall e e' P w vs, no_escape w -> star (piece e P) w vs -> star (piece e' P) w vs.
Proof.
  intros e e' P w vs N St. induction St as [|x v xs ys H St IH]; [constructor|]. apply no_escape_app in N.
  constructor; [eapply piece_esc; [apply N|exact H]|apply IH, N].
Qed.
Lemma piece_wider : forall e (P Q : char -> Prop) w v, (forall c, P c -> Q c) -> piece e P w v -> piece e Q w v.
Proof. intros e P Q w v H [(c & -> & -> & K)|K]; [left; exists c; auto|right; exact K]. Qed.
(** Any name is a name with dots at the end, whatever the escapes mean. *)
Lemma local_has_dots : forall e w v, pn_local_of e w v -> local_dots e w v.
Proof.
  intros e w v (w1 & w2 & a & b & -> & -> & H & [(-> & ->)|(u1 & u2 & vs & x & -> & -> & St & Hx)]).
  - exists w1, [], a, []. split; [reflexivity|split; [reflexivity|split; [exact H|constructor]]].
  - exists w1, (u1 ++ u2), a, (vs ++ [x]). split; [reflexivity|split; [rewrite concat_app; cbn; rewrite app_nil_r; reflexivity|split; [exact H|]]].
    apply star_app; [exact St|]. rewrite <- (app_nil_r u2). constructor; [|constructor]. eapply piece_wider; [|exact Hx]. intros c K. right. exact K.
Qed.
Lemma star_trim : forall e w vs, star (piece e (dot_or LOCAL_CHAR)) w vs ->
  exists u n v, w = u ++ repeat 46 n /\ pn_local_rest e u v.
Proof.
  intros e w vs St. induction St as [|x v xs ys H St (u & n & b & -> & Hu)].
  - exists [], 0%nat, []. split; [reflexivity|left; auto].
  - destruct Hu as [(-> & ->)|(u1 & u2 & us & z & -> & -> & Su & Hz)].
    + assert (D : x = [46] \/ piece e LOCAL_CHAR x v).
      { destruct H as [(c & -> & -> & [->|K])|K]; [left; reflexivity|right; left; eauto|right; right; exact K]. }
      destruct D as [->|D].
      * exists [], (S n), []. split; [reflexivity|left; auto].
      * exists x, n, v. split; [reflexivity|]. right. exists [], x, [], v. split; [reflexivity|split; [reflexivity|split; [constructor|exact D]]].
    + exists (x ++ u1 ++ u2), n, (concat (v :: us) ++ z). split; [rewrite <- !app_assoc; reflexivity|]. right.
      exists (x ++ u1), u2, (v :: us), z. split; [rewrite app_assoc; reflexivity|split; [reflexivity|split; [constructor; assumption|exact Hz]]].
Qed.
Lemma dots_trim : forall e w v, local_dots e w v -> exists u n b, w = u ++ repeat 46 n /\ pn_local_of e u b.
Proof.
  intros e w v (w1 & w2 & a & vs & -> & -> & H & St). destruct (star_trim _ _ _ St) as (u & n & b & -> & Hu).
  exists (w1 ++ u), n, (a ++ b). split; [apply app_assoc|]. exists w1, u, a, b. auto.
Qed.
Lemma piece_any : forall e e' P w v, piece e P w v -> exists v', piece e' P w v'.
Proof. intros e e' P w v [H|[H|(c & -> & -> & H)]]; [exists v; left; exact H|exists v; right; left; exact H|]. exists (e' c). right; right. exists c. auto. Qed.
Lemma star_any : forall e e' P w vs, star (piece e P) w vs -> exists vs', star (piece e' P) w vs'.
Proof.
  intros e e' P w vs St. induction St as [|x v xs ys H St (zs & IH)]; [exists []; constructor|].
  destruct (piece_any e e' _ _ _ H) as (y & Hy). exists (y :: zs). constructor; assumption.
Qed.
Lemma local_any : forall e e' w v, pn_local_of e w v -> exists v', pn_local_of e' w v'.
Proof.
  intros e e' w v (w1 & w2 & a & b & -> & -> & H & Hr). destruct (piece_any e e' _ _ _ H) as (a' & Ha).
  destruct Hr as [(-> & ->)|(u1 & u2 & vs & x & -> & -> & St & Hx)].
  - exists (a' ++ []), w1, [], a', []. split; [reflexivity|split; [reflexivity|split; [exact Ha|left; auto]]].
  - destruct (star_any e e' _ _ _ St) as (vs' & Sv). destruct (piece_any e e' _ _ _ Hx) as (x' & Hx').
    exists (a' ++ concat vs' ++ x'), w1, (u1 ++ u2), a', (concat vs' ++ x'). split; [reflexivity|split; [reflexivity|split; [exact Ha|]]].
    right. exists u1, u2, vs', x'. auto.
Qed.
Lemma local_esc : forall e e' w v, no_escape w -> pn_local_of e w v -> pn_local_of e' w v.
Proof.
  intros e e' w v N (w1 & w2 & a & b & -> & -> & H & Hr). apply no_escape_app in N. destruct N as (N1 & N2).
  exists w1, w2, a, b. split; [reflexivity|split; [reflexivity|split; [eapply piece_esc; eassumption|]]].
  destruct Hr as [(-> & ->)|(u1 & u2 & vs & x & -> & -> & St & Hx)]; [left; auto|].
  apply no_escape_app in N2. right. exists u1, u2, vs, x. split; [reflexivity|split; [reflexivity|split; [eapply star_esc; [apply N2|exact St]|eapply piece_esc; [apply N2|exact Hx]]]].
Qed.
Theorem local_read : forall i w r v, longest PN_LOCAL i w r -> PN_LOCAL w v -> no_escape w -> (forall s, r <> 46 :: s) ->
  (forall c s, w = c :: s -> c < 128) -> pn_local i = Ok v r.
Proof.
  intros i w r v (-> & Lo) H N Nd As. pose proof (reads_pn_local (w ++ r)) as R.
  assert (Hk : pn_local_of keep w v) by (eapply local_esc; [exact N|exact H]).
  destruct (pn_local (w ++ r)) as [v' r'| | |] eqn:E.
  - destruct R as (w' & E' & V & U). pose proof (U _ _ _ eq_refl (local_has_dots _ _ _ Hk)) as Hl.
    destruct (dots_trim _ _ _ (proj2 (V v') eq_refl)) as (u & n & b & Ew & Hu).
    destruct (local_any keep (fun c => [c]) _ _ Hu) as (b' & Hb).
    assert (Hl2 : (length u <= length w)%nat).
    { eapply Lo; [|exact Hb]. rewrite E', Ew, <- app_assoc. reflexivity. }
    destruct (app_short _ _ _ _ E' Hl) as (m & Em & Er). destruct m as [|d m].
    + rewrite app_nil_r in Em. rewrite Em in V. cbn in Er. subst r'. f_equal. symmetry. apply V. apply local_has_dots, Hk.
    + exfalso. rewrite Em in Ew. symmetry in Ew. destruct (app_short _ _ _ _ Ew Hl2) as (k & Ek & Er2).
      assert (In d (repeat 46 n)) as Hd by (rewrite Er2; apply in_or_app; right; left; reflexivity).
      apply repeat_spec in Hd. subst d. exact (Nd _ Er).
  - destruct (R _ _ _ eq_refl (local_has_dots _ _ _ Hk)).
  - destruct (R _ _ _ eq_refl (local_has_dots _ _ _ Hk)).
  - exfalso. apply local_panic in E. destruct E as (c & s & E & _ & K). destruct w as [|d w].
    + destruct H as (w1 & w2 & a & b & E2 & _ & Hp & _). symmetry in E2. apply app_eq_nil in E2. destruct E2 as (-> & _).
      destruct Hp as [(x & Ex & _)|[(_ & x & y & d & e & Ex & _)|(x & Ex & _)]]; discriminate.
    + cbn in E. injection E as -> _. pose proof (As c w eq_refl). lia.
Qed.

(** * Blank node labels *)

Lemma label_iff : forall c, is_pn_chars_u_digit c = true <-> PN_CHARS_U c \/ digit c.
Proof. intros c. unfold is_pn_chars_u_digit. rewrite orb_true_iff, chars_u_iff, digit_iff. tauto. Qed.
Lemma label_rest_iff : forall c, is_pn_chars_or_dot c = true <-> dot_or PN_CHARS c.
Proof. intros c. unfold is_pn_chars_or_dot, dot_or. rewrite orb_true_iff, N.eqb_eq, chars_iff. tauto. Qed.
Theorem reads_label : reads foreign blank_node_label label_dots.
Proof.
  unfold blank_node_label. eapply reads_equiv; [|apply reads_bind; [apply foreign_on|apply scan_tag|intros a0; apply reads_recognize, reads_bind;
    [apply foreign_on|apply (scan_one_if _ _ _ label_iff); intros c i _ K; exists c; split; [left; reflexivity|exact K]|intros a1; apply (reads_take _ _ label_rest_iff)]]].
  intros w v. unfold label_dots, one, itself. split.
  - intros (w1 & w2 & a & -> & (-> & ->) & -> & x & u1 & u2 & b & -> & (-> & Hb) & -> & F). split; [reflexivity|]. exists b, u2. auto.
  - intros (-> & c & s & -> & Hc & F). exists [95; 58], (c :: s), [95; 58]. split; [reflexivity|split; [auto|split; [reflexivity|]]].
    exists s, [c], s, c. auto.
Qed.
Theorem label_read : forall i w r v, longest BLANK_NODE_LABEL i w r -> BLANK_NODE_LABEL w v -> (forall s, r <> 46 :: s) ->
  (forall c s, v = c :: s -> c < 128) -> blank_node_label i = Ok v r.
Proof.
  intros i w r v (-> & Lo) (-> & c & s & -> & Hc & Hs) Nd As. unfold blank_node_label.
  rewrite <- app_assoc, tag_app. cbn [bind]. unfold recognize. cbn [app]. unfold one_if.
  rewrite (proj2 (label_iff c) Hc), (proj2 (N.ltb_lt c 128) (As c s eq_refl)). cbn [bind].
  assert (Fs : Forall (dot_or PN_CHARS) s).
  { destruct Hs as [->|(m & d & -> & Hm & Hd)]; [constructor|]. apply Forall_app. split; [exact Hm|]. constructor; [right; exact Hd|constructor]. }
  assert (T : take_while is_pn_chars_or_dot (s ++ r) = Ok s r).
  2:{ match goal with |- context [take_while ?f ?x] => change (take_while f x) with (take_while is_pn_chars_or_dot (s ++ r)) end.
      rewrite T. f_equal. exact (used_app (c :: s) r). }
  apply (take_while_app is_pn_chars_or_dot _ label_rest_iff s r Fs).
  intros d t -> [->|Hd]; [exact (Nd t eq_refl)|].
    pose proof (Lo ([95; 58] ++ c :: s ++ [d]) t (c :: s ++ [d])) as K. cbn in K. rewrite <- app_assoc in K. specialize (K eq_refl).
    assert (S (S (S (length (s ++ [d])))) <= S (S (S (length s))))%nat.
    { apply K. split; [reflexivity|]. exists c, (s ++ [d]). split; [reflexivity|split; [exact Hc|]]. right. exists s, d. auto. }
    rewrite app_length in H. cbn in H. lia.
Qed.
