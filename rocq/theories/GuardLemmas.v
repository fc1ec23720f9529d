(* Lemmas about the guards of the HTTP server. *)
From Coq Require Import List Ascii String Bool NArith Lia Arith.
Import ListNotations.
From Verif Require Import GuardModel GuardSpec.
Open Scope list_scope.

Lemma text_eqb_eq a b : text_eqb a b = true <-> a = b.
Proof. unfold text_eqb. destruct (list_eq_dec ascii_dec a b); split; intro; try discriminate; auto; contradiction. Qed.
Lemma find_none c l : find c l = None <-> ~ In c l.
Proof.
  induction l as [|a l IH]; cbn; [tauto|]. destruct (Ascii.eqb_spec a c) as [->|N].
  - split; [discriminate|]. intro H. destruct H. left. reflexivity.
  - transitivity (find c l = None); [destruct (find c l); cbn; split; congruence|]. rewrite IH. tauto.
Qed.
Lemma find_some c l i : find c l = Some i -> exists a b, l = a ++ c :: b /\ ~ In c a /\ i = List.length a.
Proof.
  revert i. induction l as [|x l IH]; intros i H; cbn in H; [discriminate|]. destruct (Ascii.eqb_spec x c) as [->|N].
  - injection H as <-. exists [], l. auto.
  - destruct (find c l) as [j|]; [|discriminate]. injection H as <-. destruct (IH j eq_refl) as (a & b & -> & Na & ->). exists (x :: a), b. split; [reflexivity|]. split; [intros [E|I]; auto|reflexivity].
Qed.
Lemma find_app c a b : ~ In c a -> find c (a ++ c :: b) = Some (List.length a).
Proof.
  induction a as [|x a IH]; cbn; intro N; [rewrite Ascii.eqb_refl; reflexivity|]. destruct (Ascii.eqb_spec x c) as [->|]; [destruct N; auto|]. rewrite IH; tauto.
Qed.
Lemma strip_iff p : forall l r, strip_prefix p l = Some r <-> l = p ++ r.
Proof.
  induction p as [|a p IH]; intros l r; cbn; [split; [intro H; injection H; auto|intros ->; reflexivity]|].
  destruct l as [|b l]; [split; discriminate|]. destruct (Ascii.eqb_spec a b) as [->|N].
  - rewrite IH. split; [intros ->; reflexivity|intro H; injection H; auto].
  - split; [discriminate|]. intro H. injection H as -> _. contradiction.
Qed.
Lemma slice_mid a h b : slice (List.length a) (List.length a + List.length h) (a ++ h ++ b) = Some h.
Proof.
  unfold slice. destruct (Nat.leb_spec (List.length a) (List.length a + List.length h)) as [|L]; [|lia]. rewrite skipn_app, skipn_all, Nat.sub_diag. cbn [skipn app].
  replace (List.length a + List.length h - List.length a) with (List.length h) by lia. rewrite firstn_app, firstn_all, Nat.sub_diag, app_nil_r. reflexivity.
Qed.
Lemma slice_part a b l h : slice a b l = Some h -> exists x y, l = x ++ h ++ y.
Proof.
  unfold slice. destruct (Nat.leb a b); [|discriminate]. intro H. injection H as <-. exists (firstn a l), (skipn (b - a) (skipn a l)). rewrite firstn_skipn, firstn_skipn. reflexivity.
Qed.

(* ------------------------------------------------------------------ *)
(* What is left without the scheme                                      *)

Definition rest_of (origin : text) : text :=
  match strip_prefix (t "https://") origin with
  | Some r => r
  | None => match strip_prefix (t "http://") origin with Some r => r | None => origin end
  end.
Lemma rest_scheme scheme r : scheme = t "http://" \/ scheme = t "https://" -> rest_of (scheme ++ r) = r.
Proof. intros [-> | ->]; reflexivity. Qed.
Lemma rest_part s : exists x, s = x ++ rest_of s.
Proof.
  unfold rest_of. destruct (strip_prefix (t "https://") s) as [r|] eqn:E; [apply strip_iff in E; eauto|]. destruct (strip_prefix (t "http://") s) as [r|] eqn:E'; [apply strip_iff in E'; eauto|]. exists []. reflexivity.
Qed.
Definition cut (rest : text) : option text :=
  match find "["%char rest, find "]"%char rest with
  | Some a, Some b => slice (a + 1) b rest
  | _, _ => slice 0 match find ":"%char rest with Some i => i | None => match find "/"%char rest with Some i => i | None => List.length rest end end rest
  end.
Lemma extract_cut s : extract_host s = cut (rest_of s).
Proof. reflexivity. Qed.

Lemma not_digit c a : In a (t "0123456789") -> ~ In c (t "0123456789") -> a <> c.
Proof. intros I N ->. exact (N I). Qed.
Lemma port_free c p : port_part p -> ~ In c (t ":0123456789") -> ~ In c p.
Proof. intros [|q D] N; [intros []|]. cbn. intros [<-|I]; [apply N; left; reflexivity|]. apply N. right. apply D, I. Qed.
Lemma no_bracket c : c = "["%char \/ c = "]"%char \/ c = "/"%char -> ~ In c (t ":0123456789").
Proof. intros [-> | [-> | ->]] H; cbn in H; repeat (destruct H as [H|H]; [discriminate H|]); exact H. Qed.
Lemma cut_plain h p : ~ In "["%char h \/ ~ In "]"%char h -> ~ In ":"%char h -> ~ In "/"%char h ->
  (p = [] \/ exists q, p = ":"%char :: q /\ (~ In "["%char (h ++ q) \/ ~ In "]"%char (h ++ q))) -> cut (h ++ p) = Some h.
Proof.
  intros B C S P. unfold cut.
  assert (N : find "["%char (h ++ p) = None \/ find "]"%char (h ++ p) = None).
  { destruct P as [->|(q & -> & [Q|Q])].
    - rewrite app_nil_r. destruct B; [left|right]; apply find_none; assumption.
    - left. apply find_none. intro I. apply Q. apply in_app_or in I. apply in_or_app. destruct I as [I|[I|I]]; [auto|discriminate I|auto].
    - right. apply find_none. intro I. apply Q. apply in_app_or in I. apply in_or_app. destruct I as [I|[I|I]]; [auto|discriminate I|auto]. }
  assert (E : slice 0 match find ":"%char (h ++ p) with Some i => i | None => match find "/"%char (h ++ p) with Some i => i | None => List.length (h ++ p) end end (h ++ p) = Some h).
  { destruct P as [->|(q & -> & _)].
    - rewrite app_nil_r. rewrite (proj2 (find_none _ _) C), (proj2 (find_none _ _) S). pose proof (slice_mid [] h []) as X. cbn in X. rewrite app_nil_r in X. exact X.
    - rewrite find_app by exact C. exact (slice_mid [] h (":"%char :: q)). }
  destruct N as [->|N]; [exact E|]. rewrite N. destruct (find "["%char (h ++ p)); exact E.
Qed.
Lemma cut_bracketed h r : ~ In "]"%char h -> cut ("["%char :: h ++ "]"%char :: r) = Some h.
Proof.
  intro N. unfold cut. cbn [find]. change (Ascii.eqb "[" "[") with true. change (Ascii.eqb "[" "]") with false. cbn iota. rewrite find_app by exact N. cbn [option_map]. exact (slice_mid ["["%char] h ("]"%char :: r)).
Qed.
Lemma origin_extract s h : origin_host s h -> extract_host s = Some h.
Proof.
  intros [scheme k p Sc (A & B & C & D) P|scheme k p Sc (A & B) P]; rewrite extract_cut, rest_scheme by exact Sc.
  - apply cut_plain; auto. destruct P as [|q Q]; [auto|]. right. exists q. split; [reflexivity|]. left. intro I. apply in_app_or in I. destruct I as [I|I]; [exact (A I)|].
    apply (port_free "["%char (t ":" ++ q)); [constructor; exact Q|apply no_bracket; auto|right; exact I].
  - apply cut_bracketed, B.
Qed.
Lemma cut_part r h : cut r = Some h -> exists x y, r = x ++ h ++ y.
Proof. unfold cut. destruct (find "["%char r), (find "]"%char r); apply slice_part. Qed.

(* ------------------------------------------------------------------ *)
(* Networks                                                             *)

Lemma shift_bits a b k : N.eqb (N.shiftr a k) (N.shiftr b k) = true <-> forall j, (k <= j)%N -> N.testbit a j = N.testbit b j.
Proof.
  rewrite N.eqb_eq. split.
  - intros E j H. replace j with (j - k + k)%N by lia. rewrite <- !N.shiftr_spec'. rewrite E. reflexivity.
  - intro H. apply N.bits_inj. intro j. rewrite !N.shiftr_spec'. apply H. lia.
Qed.
Lemma contains_iff n i : contains n i = true <-> inside n i.
Proof.
  unfold contains, inside, same_version. destruct (n_addr n) as [a|a], i as [b|b]; cbn; rewrite ?shift_bits.
  - split; [auto|intros [_ H]; exact H].
  - split; [discriminate|intros [E _]; discriminate E].
  - split; [discriminate|intros [E _]; discriminate E].
  - split; [auto|intros [_ H]; exact H].
Qed.
Lemma allowed_iff c i : is_ip_allowed c i = true <-> granted (networks c) i.
Proof.
  unfold is_ip_allowed, granted. rewrite existsb_exists. split; intros (n & I & H); exists n; (split; [exact I|]); apply contains_iff; exact H.
Qed.
Lemma local_granted i : granted (networks localhost_only) i <-> (exists a, i = V4 a /\ (a / 2 ^ 24 = 127)%N) \/ i = V6 1.
Proof.
  rewrite <- allowed_iff. unfold is_ip_allowed. cbn [networks localhost_only existsb contains n_addr n_prefix]. destruct i as [a|a].
  - rewrite !orb_false_r. rewrite N.eqb_eq. change (32 - 8)%N with 24%N. change (N.shiftr (127 * 2 ^ 24) 24) with 127%N. rewrite N.shiftr_div_pow2. split; [intro E; left; exists a; auto|]. intros [(b & E & H)|E]; [injection E as ->; auto|discriminate].
  - cbn [orb]. rewrite orb_false_r. change (128 - 128)%N with 0%N. rewrite !N.shiftr_0_r, N.eqb_eq. split; [intros <-; right; reflexivity|]. intros [(b & E & _)|E]; [discriminate|injection E as ->; reflexivity].
Qed.

Section Guards.
Context {L : net}.
Lemma host_allowed c h : match parse_ip h with
    | Some i => is_ip_allowed c i
    | None => if text_eqb h (t "localhost") then is_ip_allowed c localhost_v4 || is_ip_allowed c localhost_v6 else false
    end = true <-> may_send (networks c) h.
Proof.
  unfold may_send. destruct (parse_ip h) as [i|] eqn:E.
  - rewrite allowed_iff. split; [eauto|]. intros [(j & Ej & H)|[Ej _]]; [congruence|discriminate].
  - destruct (text_eqb h (t "localhost")) eqn:El.
    + apply text_eqb_eq in El. rewrite orb_true_iff, !allowed_iff. split.
      * intro H. right. split; [reflexivity|]. split; [exact El|]. destruct H; eauto.
      * intros [(j & Ej & _)|(_ & _ & i & [-> | ->] & H)]; [discriminate|left|right]; exact H.
    + split; [discriminate|]. intros [(j & Ej & _)|(_ & -> & _)]; [discriminate|]. rewrite (proj2 (text_eqb_eq _ _) eq_refl) in El. discriminate.
Qed.
Lemma origin_allowed c s h : extract_host s = Some h -> exists b, is_allowed_origin c s = Some b /\ (b = true <-> may_send (networks c) h).
Proof. intro E. unfold is_allowed_origin. rewrite E. eexists. split; [reflexivity|]. apply host_allowed. Qed.

(* ------------------------------------------------------------------ *)
(* Headers                                                              *)

Lemma get_some n hs v : get n hs = Some v <-> first n hs v.
Proof.
  split.
  - induction hs as [|[m w] hs IH]; cbn; [discriminate|]. destruct (text_eqb m n) eqn:E.
    + apply text_eqb_eq in E. subst m. intro H. injection H as ->. constructor.
    + intro H. constructor; [intros ->; rewrite (proj2 (text_eqb_eq _ _) eq_refl) in E; discriminate|auto].
  - induction 1 as [v hs|m w v hs N F IH]; cbn; [rewrite (proj2 (text_eqb_eq _ _) eq_refl); reflexivity|]. destruct (text_eqb m n) eqn:E; [apply text_eqb_eq in E; contradiction|exact IH].
Qed.
Lemma get_none n hs : get n hs = None <-> absent n hs.
Proof.
  unfold absent. induction hs as [|[m w] hs IH]; cbn; [split; [intros _ v []|reflexivity]|]. destruct (text_eqb m n) eqn:E.
  - apply text_eqb_eq in E. subst m. split; [discriminate|]. intro H. destruct (H w). left. reflexivity.
  - rewrite IH. split; [|intros H v I; apply (H v); right; exact I]. intros H v [I|I]; [|exact (H v I)]. injection I as -> _. rewrite (proj2 (text_eqb_eq _ _) eq_refl) in E. discriminate.
Qed.
Lemma visible_iff v : forallb visible v = true <-> printable v.
Proof.
  unfold printable. rewrite forallb_forall. split; intros H a I; specialize (H a I); unfold visible in *.
  - rewrite orb_true_iff, andb_true_iff, N.leb_le, N.ltb_lt, N.eqb_eq in H. exact H.
  - rewrite orb_true_iff, andb_true_iff, N.leb_le, N.ltb_lt, N.eqb_eq. exact H.
Qed.
Lemma supported_iff s : existsb (text_eqb s) supported = true <-> In s supported.
Proof. rewrite existsb_exists. split; [intros (x & I & E); apply text_eqb_eq in E; subst; exact I|]. intro I. exists s. split; [exact I|]. apply text_eqb_eq. reflexivity. Qed.
Lemma supported_printable s : In s supported -> printable s.
Proof. intro I. apply visible_iff. destruct I as [<-|[<-|[<-|[]]]]; reflexivity. Qed.

Definition origin_fine c hs : Prop := absent (t "origin") hs /\ allow_missing c = true \/ exists v h, first (t "origin") hs v /\ printable v /\ origin_host v h /\ may_send (networks c) h.
Definition version_fine hs : Prop := absent (t "mcp-protocol-version") hs \/ exists v, first (t "mcp-protocol-version") hs v /\ In v supported.
Lemma protocol_guard_is hs next : protocol_guard hs next = next /\ version_fine hs \/ protocol_guard hs next = BadRequest /\ ~ version_fine hs.
Proof.
  unfold protocol_guard, version_fine. destruct (get (t "mcp-protocol-version") hs) as [v|] eqn:E.
  - pose proof E as E'. apply get_some in E'. assert (Na : ~ absent (t "mcp-protocol-version") hs) by (intro A; apply get_none in A; congruence).
    unfold to_str. destruct (forallb visible v) eqn:V.
    + destruct (existsb (text_eqb v) supported) eqn:S.
      * left. split; [reflexivity|]. right. exists v. split; [exact E'|]. apply supported_iff, S.
      * right. split; [reflexivity|]. intros [A|(w & F & I)]; [exact (Na A)|]. apply get_some in F. assert (w = v) by congruence. subst w. apply supported_iff in I. congruence.
    + right. split; [reflexivity|]. intros [A|(w & F & I)]; [exact (Na A)|]. apply get_some in F. assert (w = v) by congruence. subst w. apply supported_printable, visible_iff in I. congruence.
  - left. split; [reflexivity|]. left. apply get_none, E.
Qed.
Lemma origin_guard_is c hs next : (forall v, first (t "origin") hs v -> exists h, origin_host v h) ->
  origin_guard c hs next = next /\ origin_fine c hs \/ origin_guard c hs next = Forbidden /\ ~ origin_fine c hs.
Proof.
  intro W. unfold origin_guard, origin_fine. destruct (get (t "origin") hs) as [v|] eqn:E.
  - pose proof E as E'. apply get_some in E'. assert (Na : ~ absent (t "origin") hs) by (intro A; apply get_none in A; congruence).
    destruct (W v E') as (h & O). pose proof (origin_extract v h O) as X. destruct (origin_allowed c v h X) as (b & Eb & B).
    assert (U : (exists w k, first (t "origin") hs w /\ printable w /\ origin_host w k /\ may_send (networks c) k) <-> printable v /\ may_send (networks c) h).
    { split.
      - intros (w & k & F & P & Ow & M). apply get_some in F. assert (w = v) by congruence. subst w. pose proof (origin_extract v k Ow) as X'. assert (k = h) by congruence. subst k. auto.
      - intros [P M]. exists v, h. auto. }
    unfold to_str. destruct (forallb visible v) eqn:V.
    + rewrite Eb. apply visible_iff in V. destruct b.
      * left. split; [reflexivity|]. right. apply U. split; [exact V|]. apply B, eq_refl.
      * right. split; [reflexivity|]. intros [[A _]|H]; [exact (Na A)|]. apply U in H. apply proj2, B in H. discriminate.
    + right. split; [reflexivity|]. intros [[A _]|H]; [exact (Na A)|]. apply U in H. apply proj1, visible_iff in H. congruence.
  - apply get_none in E. destruct (allow_missing c) eqn:A.
    + left. split; [reflexivity|]. left. auto.
    + right. split; [reflexivity|]. intros [[_ H]|(v & h & F & _)]; [discriminate|]. apply get_some in F. apply get_none in E. congruence.
Qed.
End Guards.
