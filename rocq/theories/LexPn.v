(** Prefixed names, blank node labels and literals. *)
From Coq Require Import List NArith ZArith Bool Lia.
From Verif Require Import LexModel LexSpec LexCore LexLemmas LexNames.
Import ListNotations.
Local Open Scope N_scope.

(** * Prefixes *)

Lemma colon_not_char : ~ PN_CHARS 58.
Proof. rewrite <- chars_iff. discriminate. Qed.
Lemma dot_not_char : ~ PN_CHARS 46.
Proof. rewrite <- chars_iff. discriminate. Qed.
Lemma base_char : forall c, PN_CHARS_BASE c -> PN_CHARS c.
Proof. intros c H. left. left. exact H. Qed.

(** The parts of a prefix between dots. *)
Definition parts (s : str) (a : str) (ps : list str) : Prop :=
  s = a ++ concat (map (cons 46%N) ps) /\ Forall PN_CHARS a /\ Forall (fun p => p <> [] /\ Forall PN_CHARS p) ps.
Lemma no_dots_tail : forall c s, no_dots (c :: s) -> no_dots s.
Proof. intros c s H a b E. apply (H (c :: a) b). cbn. f_equal. exact E. Qed.
Lemma parts_of : forall s, Forall (dot_or PN_CHARS) s -> no_dots s -> (forall m c, s = m ++ [c] -> c <> 46) -> exists a ps, parts s a ps.
Proof.
  induction s as [|c s IH]; intros F N La.
  - exists [], []. split; [reflexivity|split; constructor].
  - inversion F as [|? ? Hc Hs]; subst. destruct IH as (a & ps & -> & Ha & Hp); [exact Hs|exact (no_dots_tail _ _ N)| |].
    { intros m d ->. exact (La (c :: m) d eq_refl). }
    destruct Hc as [->|Hc].
    + destruct a as [|d a].
      * exfalso. destruct ps as [|p ps]; [exact (La [] 46 eq_refl eq_refl)|]. cbn in N. exact (N [] (p ++ concat (map (cons 46%N) ps)) eq_refl).
      * exists [], ((d :: a) :: ps). split; [reflexivity|split; [constructor|]]. constructor; [split; [discriminate|exact Ha]|exact Hp].
    + exists (c :: a), ps. split; [reflexivity|split; [constructor; assumption|exact Hp]].
Qed.
Lemma parts_chars : forall s a ps, parts s a ps -> Forall (dot_or PN_CHARS) s.
Proof.
  intros s a ps (-> & Ha & Hp). apply Forall_app. split; [eapply Forall_impl; [|exact Ha]; intros c H; right; exact H|].
  induction Hp as [|p ps (_ & Hp) _ IH]; cbn; [constructor|]. constructor; [left; reflexivity|]. apply Forall_app.
  split; [eapply Forall_impl; [|exact Hp]; intros c H; right; exact H|exact IH].
Qed.
Lemma parts_last : forall s a ps, parts s a ps -> s = [] \/ exists m d, s = m ++ [d] /\ PN_CHARS d.
Proof.
  intros s a ps (-> & Ha & Hp). destruct ps as [|q qs] using rev_ind.
  - cbn. rewrite app_nil_r. destruct a as [|d a] using rev_ind; [auto|]. right. exists a, d. split; [reflexivity|].
    apply Forall_app in Ha. destruct Ha as (_ & Ha). inversion Ha; assumption.
  - clear IHqs. apply Forall_app in Hp. destruct Hp as (_ & Hp). inversion Hp as [|? ? (Ne & Hq) _]; subst. right.
    destruct q as [|d q] using rev_ind; [congruence|]. clear IHq. rewrite map_app, concat_app. cbn. rewrite app_nil_r.
    exists (a ++ concat (map (cons 46%N) qs) ++ 46 :: q), d. split; [rewrite <- !app_assoc; reflexivity|].
    apply Forall_app in Hq. destruct Hq as (_ & Hq). inversion Hq; assumption.
Qed.
Lemma parts_no_dots : forall ps a, Forall PN_CHARS a -> Forall (fun p => p <> [] /\ Forall PN_CHARS p) ps -> no_dots (a ++ concat (map (cons 46%N) ps)).
Proof.
  induction ps as [|p ps IH]; intros a Ha Hp x y E.
  - cbn in E. rewrite app_nil_r in E. subst a. apply Forall_app in Ha. destruct Ha as (_ & Ha). inversion Ha as [|? ? K]; subst. exact (dot_not_char K).
  - inversion Hp as [|? ? (Ne & Hq) Hps]; subst. cbn in E. revert x E. induction Ha as [|c a Hc Ha IHa]; intros x E; cbn in E.
    + destruct x as [|d x]; cbn in E; injection E as E.
      * destruct p as [|c p]; [congruence|]. cbn in E. injection E as -> E. inversion Hq as [|? ? K]; subst. exact (dot_not_char K).
      * subst d. exact (IH p Hq Hps x y H).
    + destruct x as [|d x]; cbn in E; injection E as E1 E2.
      * subst c. exact (dot_not_char Hc).
      * exact (IHa _ E2).
Qed.
(** Prefixes without two dots in a row. *)
Definition prefix1 (w : str) : Prop := exists c s a ps, w = c :: s /\ PN_CHARS_BASE c /\ parts s a ps.
Lemma prefix1_iff : forall w, prefix1 w <-> PN_PREFIX w /\ no_dots w.
Proof.
  intros w. split.
  - intros (c & s & a & ps & -> & Hc & Hp). split.
    + exists c, s. split; [reflexivity|split; [exact Hc|]]. destruct (parts_last _ _ _ Hp) as [->|(m & d & -> & Hd)]; [auto|].
      right. exists m, d. split; [reflexivity|split; [|exact Hd]]. apply parts_chars in Hp. apply Forall_app in Hp. tauto.
    + destruct Hp as (-> & Ha & Hp). apply (parts_no_dots ps (c :: a)); [constructor; [apply base_char, Hc|exact Ha]|exact Hp].
  - intros ((c & s & -> & Hc & Hs) & N). destruct Hs as [->|(m & d & -> & Hm & Hd)].
    + exists c, [], [], []. split; [reflexivity|split; [exact Hc|]]. split; [reflexivity|split; constructor].
    + destruct (parts_of (m ++ [d])) as (a & ps & Hp).
      * apply Forall_app. split; [exact Hm|]. constructor; [right; exact Hd|constructor].
      * exact (no_dots_tail _ _ N).
      * intros m' c' E. apply app_inj_tail in E. destruct E as (_ & <-). intros ->. exact (dot_not_char Hd).
      * exists c, (m ++ [d]), a, ps. auto.
Qed.
Definition dot_part : parser str := fun i => bind (char_dot i) (fun _ => take_while1 is_pn_chars).
Lemma dot_part_app : forall p r, p <> [] -> Forall PN_CHARS p -> stops PN_CHARS r -> dot_part (46 :: p ++ r) = Ok p r.
Proof.
  intros p r Ne Hp St. unfold dot_part, char_dot, is, satisfy. cbn [bind N.eqb Pos.eqb]. unfold take_while1.
  rewrite (take_while_app is_pn_chars PN_CHARS chars_iff p r Hp St). destruct p; [congruence|reflexivity].
Qed.
Lemma parts_stop : forall ps r, stops PN_CHARS r -> stops PN_CHARS (concat (map (cons 46%N) ps) ++ r).
Proof. intros [|p ps] r St; cbn; [exact St|]. apply dot_stops, dot_not_char. Qed.
Lemma many_parts : forall ps n r, Forall (fun p => p <> [] /\ Forall PN_CHARS p) ps ->
  stops PN_CHARS r -> (forall s, r <> 46 :: s) -> (length (concat (map (cons 46%N) ps) ++ r) < n)%nat ->
  many n dot_part (concat (map (cons 46%N) ps) ++ r) = Ok ps r.
Proof.
  induction ps as [|p ps IH]; intros n r Hp St Nd Hn; (destruct n as [|n]; [lia|]).
  - cbn. unfold dot_part, char_dot, is, satisfy, bind. destruct r as [|c r]; [reflexivity|].
    destruct (N.eqb_spec 46 c) as [<-|_]; [destruct (Nd r eq_refl)|reflexivity].
  - inversion Hp as [|? ? (Ne & Hq) Hps]; subst. cbn [map concat app]. rewrite <- app_assoc. cbn [many].
    rewrite (dot_part_app p _ Ne Hq); [|apply parts_stop, St].
    cbn [map concat app length] in Hn. rewrite !app_length in Hn. cbn in Hn.
    match goal with |- context [Nat.eqb ?a ?b] => destruct (Nat.eqb_spec a b) as [E|_] end.
    + cbn in E. rewrite !app_length in E. lia.
    + unfold pmap. rewrite IH; [reflexivity|exact Hps|exact St|exact Nd|]. rewrite app_length in *. lia.
Qed.
Lemma pn_prefix_app : forall w r, prefix1 w -> stops PN_CHARS r -> (forall s, r <> 46 :: s) -> pn_prefix (w ++ r) = Ok w r.
Proof.
  intros w r (c & s & a & ps & -> & Hc & (-> & Ha & Hp)) St Nd. unfold pn_prefix, recognize.
  cbn [app]. unfold satisfy at 1. rewrite (proj2 (base_iff c) Hc). cbn [bind]. rewrite <- app_assoc.
  rewrite (take_while_app is_pn_chars PN_CHARS chars_iff a _ Ha); [|apply parts_stop, St]. cbn [bind].
  unfold many0. change (fun i : str => bind (char_dot i) (fun _ : char => take_while1 is_pn_chars)) with dot_part.
  rewrite many_parts; [|exact Hp|exact St|exact Nd|apply Nat.lt_succ_diag_r].
  pose proof (used_app (c :: a ++ concat (map (cons 46%N) ps)) r) as E. cbn [app] in E. rewrite <- app_assoc in E. rewrite E. reflexivity.
Qed.
Lemma dot_part_ok : forall i v r, dot_part i = Ok v r -> i = 46 :: v ++ r /\ v <> [] /\ Forall PN_CHARS v.
Proof.
  intros i v r E. unfold dot_part, char_dot, is, satisfy in E. destruct i as [|c i]; [discriminate|].
  destruct (N.eqb_spec 46 c) as [<-|_]; [|discriminate]. cbn [bind] in E.
  destruct (take_while1_spec is_pn_chars PN_CHARS chars_iff i) as [(w & r' & E2 & -> & Ne & Hw & _)|(E2 & _)]; rewrite E2 in E; [|discriminate].
  injection E as <- <-. auto.
Qed.
Lemma many_dot_parts : forall n i, (length i < n)%nat -> exists vs r, many n dot_part i = Ok vs r /\ i = concat (map (cons 46%N) vs) ++ r /\
  Forall (fun p => p <> [] /\ Forall PN_CHARS p) vs.
Proof.
  induction n as [|n IH]; intros i H; [lia|]. cbn [many]. destruct (dot_part i) as [v r| | |] eqn:E.
  - apply dot_part_ok in E. destruct E as (-> & Ne & Hv). cbn in H. rewrite app_length in H.
    match goal with |- context [Nat.eqb ?a ?b] => destruct (Nat.eqb_spec a b) as [E|_] end; [cbn in E; rewrite app_length in E; lia|].
    destruct (IH r ltac:(lia)) as (vs & r2 & E2 & -> & Hvs). exists (v :: vs), r2. unfold pmap. rewrite E2.
    split; [reflexivity|split; [cbn; rewrite <- app_assoc; reflexivity|]]. constructor; auto.
  - exists [], i. split; [reflexivity|split; [reflexivity|constructor]].
  - exfalso. revert E. apply (soft_bind _ _ char_dot (fun _ => take_while1 is_pn_chars)); [apply soft_is|intros _; apply soft_take1].
  - exfalso. revert E. unfold dot_part, char_dot, is, satisfy. destruct i as [|c i]; [discriminate|]. destruct (46 =? c); [|discriminate].
    cbn [bind]. destruct (take_while1_spec is_pn_chars PN_CHARS chars_iff i) as [(w & r' & -> & _)|(-> & _)]; discriminate.
Qed.
Lemma pn_prefix_cases : forall i, (exists w r, pn_prefix i = Ok w r /\ i = w ++ r /\ prefix1 w) \/ pn_prefix i = Err /\ stops PN_CHARS_BASE i.
Proof.
  intros i. unfold pn_prefix, recognize. destruct i as [|c i].
  - right. split; [reflexivity|]. intros d s E. discriminate.
  - change (satisfy is_pn_chars_base (c :: i)) with (if is_pn_chars_base c then Ok c i else Err). destruct (is_pn_chars_base c) eqn:Hc.
    + apply base_iff in Hc. left. cbn [bind].
      destruct (take_while_spec is_pn_chars PN_CHARS chars_iff i) as (a & r & E & -> & Ha & St). rewrite E. cbn [bind]. unfold many0.
      change (fun i : str => bind (char_dot i) (fun _ : char => take_while1 is_pn_chars)) with dot_part.
      destruct (many_dot_parts (S (length r)) r ltac:(lia)) as (vs & r2 & E2 & -> & Hvs). rewrite E2.
      exists (c :: a ++ concat (map (cons 46%N) vs)), r2. split.
      * pose proof (used_app (c :: a ++ concat (map (cons 46%N) vs)) r2) as U. cbn [app] in U. rewrite <- app_assoc in U. f_equal. exact U.
      * split; [cbn; rewrite <- app_assoc; reflexivity|]. exists c, (a ++ concat (map (cons 46%N) vs)), a, vs. split; [reflexivity|split; [exact Hc|]].
        split; auto.
    + right. split; [reflexivity|]. intros d s E H. injection E as <- _. apply base_iff in H. congruence.
Qed.
(** What comes before a colon. *)
Definition colonless (c : char) : Prop := c <> 58.
Lemma prefix_colonless : forall w, PN_PREFIX w -> Forall colonless w.
Proof.
  assert (K : forall c, PN_CHARS c -> colonless c) by (intros c H ->; exact (colon_not_char H)).
  intros w (c & s & -> & Hc & Hs). constructor; [apply K, base_char, Hc|].
  destruct Hs as [->|(m & d & -> & Hm & Hd)]; [constructor|]. apply Forall_app. split; [|constructor; [apply K, Hd|constructor]].
  eapply Forall_impl; [|exact Hm]. intros x [->|Hx]; [discriminate|apply K, Hx].
Qed.
Lemma stop_colon : forall P r, ~ P 58 -> stops P (58 :: r).
Proof. intros P r H c s E. injection E as <- _. exact H. Qed.
Theorem scan_pname_ns : forall bad, scan bad pname_ns single_dots.
Proof.
  intros bad i. unfold pname_ns, popt.
  assert (Uq : forall p p' r r', p ++ 58 :: r = p' ++ 58 :: r' -> Forall colonless p -> Forall colonless p' -> p = p').
  { intros p p' r r' E F F'. refine (proj1 (run_unique colonless p (58 :: r) p' (58 :: r') E F F' _ _)); apply stop_colon; intros H; apply H; reflexivity. }
  assert (Cl : forall w p, single_dots w p -> Forall colonless p).
  { intros w p ((_ & [->|H]) & _); [constructor|apply prefix_colonless, H]. }
  assert (Go : forall w p r, single_dots w p -> i = w ++ r -> p <> [] -> pn_prefix i = Ok p (58 :: r)).
  { intros w p r ((-> & [->|H]) & N) -> Ne; [congruence|]. rewrite <- app_assoc. apply pn_prefix_app.
    - apply prefix1_iff. auto.
    - apply stop_colon, colon_not_char.
    - discriminate. }
  destruct (pn_prefix_cases i) as [(p & r & E & Ei & Hp)|(E & St)]; rewrite E; cbn [bind]; unfold is, satisfy.
  - apply prefix1_iff in Hp. destruct r as [|c r]; [|destruct (N.eqb_spec 58 c) as [<-|Nc]]; cbn [bind].
    + intros w r' v Ew H. destruct v as [|d v].
      * destruct H as ((-> & _) & _). destruct Hp as ((x & s & -> & Hx & _) & _). rewrite Ew in Ei. cbn in Ei. injection Ei as <- _.
        exact (colon_not_char (base_char _ Hx)).
      * rewrite (Go w (d :: v) r' H Ew ltac:(discriminate)) in E. discriminate.
    + exists (p ++ [58]). rewrite <- app_assoc. split; [exact Ei|split; [split; [split; [reflexivity|right; tauto]|tauto]|]].
      intros w' r' v' Ew H. assert (v' = p) as ->.
      { destruct H as ((-> & H) & N). rewrite <- app_assoc in Ew. rewrite Ew in Ei. cbn [app] in Ei.
        eapply Uq; [exact Ei| |apply prefix_colonless; tauto]. destruct H as [->|H]; [constructor|apply prefix_colonless, H]. }
      destruct H as ((-> & _) & _). auto.
    + intros w r' v Ew H. destruct v as [|d v].
      * destruct H as ((-> & _) & _). destruct Hp as ((x & s & -> & Hx & _) & _). rewrite Ew in Ei. cbn in Ei. injection Ei as <- _.
        exact (colon_not_char (base_char _ Hx)).
      * rewrite (Go w (d :: v) r' H Ew ltac:(discriminate)) in E. injection E as _ E. congruence.
  - assert (Em : forall w v r, single_dots w v -> i = w ++ r -> v = []).
    { intros w [|d v] r H Ew; [reflexivity|]. rewrite (Go w (d :: v) r H Ew ltac:(discriminate)) in E. discriminate. }
    destruct i as [|c r]; [|destruct (N.eqb_spec 58 c) as [<-|Nc]]; cbn [bind].
    + intros w r v Ew ((-> & _) & _). destruct v; discriminate.
    + exists [58]. split; [reflexivity|split; [split; [split; [reflexivity|left; reflexivity]|intros [|? [|? ?]] b Eb; discriminate]|]].
      intros w' r' v' Ew H. pose proof (Em _ _ _ H Ew) as ->. destruct H as ((-> & _) & _). auto.
    + intros w r' v Ew H. pose proof (Em _ _ _ H Ew) as ->. destruct H as ((-> & _) & _). cbn in Ew. injection Ew as -> _. congruence.
Qed.
