(* Lemmas about pages, logs and saves. *)
From Coq Require Import String Ascii List Bool Arith NArith Lia DecimalString DecimalN.
From Verif Require Import McModel McSpec.
Import ListNotations.
Open Scope nat_scope.
Open Scope list_scope.

(* ---------- pages ---------- *)

Lemma uint_nonnil n : N.to_uint n <> Decimal.Nil.
Proof.
  intros H. assert (E := DecimalN.Unsigned.of_to n). rewrite H in E. cbn in E. subst n. discriminate.
Qed.

Lemma print_not_plus n r : print n <> String "+" r.
Proof.
  unfold print. destruct (N.to_uint n); cbn; discriminate.
Qed.

Lemma read_print n : (n < 2 ^ 64)%N -> read_usize (print n) = Some n.
Proof.
  intros H. unfold read_usize.
  assert (E : match print n with String "+" r => r | _ => print n end = print n).
  { pose proof (print_not_plus n) as K. destruct (print n) as [|c r]; [reflexivity |].
    destruct c as [[] [] [] [] [] [] [] []]; try reflexivity. now destruct (K r). }
  rewrite E. unfold print. rewrite NilZero.usu; [| apply uint_nonnil].
  rewrite DecimalN.Unsigned.of_to. apply N.ltb_lt in H. now rewrite H.
Qed.

Section Pages.
Context {A : Type}.
Variable l : list A.
Hypothesis Hl : (N.of_nat (length l) < 2 ^ 64)%N.

Lemma page_at n c : parse_cursor c (N.of_nat (length l)) = Some (N.of_nat n) -> n <= length l ->
  page l (Some c) = Some (firstn 20 (skipn n l),
    if n + 20 <? length l then Some (print (N.of_nat (n + 20))) else None).
Proof.
  intros H Hn. unfold page. rewrite H.
  cbn zeta. rewrite (N.min_l (N.of_nat n)) by lia.
  destruct (n + 20 <? length l) eqn:E.
  - apply Nat.ltb_lt in E. unfold page_size. rewrite N.min_l by lia.
    replace (N.of_nat n + 20 <? N.of_nat (length l))%N with true by (symmetry; apply N.ltb_lt; lia).
    replace (N.to_nat (N.of_nat n + 20 - N.of_nat n)) with 20 by lia.
    rewrite Nat2N.id. replace (N.of_nat n + 20)%N with (N.of_nat (n + 20)) by lia. reflexivity.
  - apply Nat.ltb_ge in E. unfold page_size. rewrite N.min_r by lia.
    rewrite N.ltb_irrefl. rewrite Nat2N.id.
    replace (N.to_nat (N.of_nat (length l) - N.of_nat n)) with (length (skipn n l)) by (rewrite skipn_length; lia).
    rewrite firstn_all, (firstn_all2 (n := 20)) by (rewrite skipn_length; lia). reflexivity.
Qed.

Lemma walk_from : forall k n c, length l - n <= k -> n <= length l ->
  parse_cursor c (N.of_nat (length l)) = Some (N.of_nat n) ->
  walk l c (skipn n l) /\ forall r, walk l c r -> r = skipn n l.
Proof.
  induction k as [k IH] using lt_wf_ind. intros n c Hk Hn H.
  pose proof (page_at n c H Hn) as P. destruct (n + 20 <? length l) eqn:E.
  - apply Nat.ltb_lt in E.
    assert (H' : parse_cursor (Some (print (N.of_nat (n + 20)))) (N.of_nat (length l)) = Some (N.of_nat (n + 20))).
    { unfold parse_cursor. rewrite read_print by lia.
      replace (N.of_nat (length l) <? N.of_nat (n + 20))%N with false by (symmetry; apply N.ltb_ge; lia).
      reflexivity. }
    destruct (IH (length l - (n + 20)) ltac:(lia) (n + 20) _ ltac:(lia) ltac:(lia) H') as [W U].
    assert (S : skipn n l = firstn 20 (skipn n l) ++ skipn (n + 20) l).
    { rewrite <- (firstn_skipn 20 (skipn n l)) at 1. f_equal.
      rewrite <- (firstn_skipn n l) at 2. rewrite skipn_app.
      assert (Q : length (firstn n l) = n) by (rewrite firstn_length; lia).
      rewrite Q. rewrite (skipn_all2 (firstn n l)) by lia. cbn [app]. f_equal. lia. }
    split.
    + rewrite S. eapply walk_next; eassumption.
    + intros r Hr. inversion Hr; subst; [congruence |]. rewrite P in H0. injection H0 as <- <-.
      rewrite (U _ H1). now symmetry.
  - apply Nat.ltb_ge in E. rewrite firstn_all2 in P by (rewrite skipn_length; lia). split.
    + now apply walk_last.
    + intros r Hr. inversion Hr; subst; congruence.
Qed.

End Pages.

(* ---------- logs ---------- *)

(* Times at which the limiter lets messages through. *)
Fixpoint passed (lim : limiter) (ts : list nat) : list nat :=
  match ts with
  | [] => []
  | t :: ts => let (lim', b) := should_emit lim t in if b then t :: passed lim' ts else passed lim' ts
  end.

Lemma within_cons t w x l :
  within t w (x :: l) = (if (t <=? x) && (x <? t + w) then 1 else 0) + within t w l.
Proof. unfold within. cbn [filter]. destruct ((t <=? x) && (x <? t + w)); reflexivity. Qed.

Lemma within_late t w lim : forall ts x, t + w <= x -> forward x ts -> within t w (passed lim ts) = 0.
Proof.
  intros ts. revert lim. induction ts as [|y ts IH]; intros lim x H F; [reflexivity |].
  destruct F as [F1 F2]. cbn [passed]. destruct (should_emit lim y) as [lim' b].
  specialize (IH lim' y ltac:(lia) F2). destruct b; [| exact IH].
  rewrite within_cons, IH. replace (y <? t + w) with false by (symmetry; apply Nat.ltb_ge; lia).
  now rewrite andb_false_r.
Qed.

Lemma should_emit_cases lim x : started lim <= x -> exists lim' b, should_emit lim x = (lim', b) /\
  most lim' = most lim /\ window lim' = window lim /\
  ((x < started lim + window lim /\ started lim' = started lim /\
    (b = true /\ emitted lim < most lim /\ emitted lim' = S (emitted lim) \/
     b = false /\ most lim <= emitted lim /\ emitted lim' = emitted lim)) \/
   (started lim + window lim <= x /\ started lim' = x /\
    (b = true /\ 0 < most lim /\ emitted lim' = 1 \/ b = false /\ most lim = 0 /\ emitted lim' = 0))).
Proof.
  intros H. unfold should_emit. destruct (window lim <=? x - started lim) eqn:E.
  - apply Nat.leb_le in E. cbn [emitted most started window].
    destruct (0 <? most lim) eqn:M; [apply Nat.ltb_lt in M | apply Nat.ltb_ge in M];
      do 2 eexists; (split; [reflexivity |]); cbn; repeat split; right; repeat split; try lia.
  - apply Nat.leb_gt in E. destruct (emitted lim <? most lim) eqn:M; [apply Nat.ltb_lt in M | apply Nat.ltb_ge in M];
      do 2 eexists; (split; [reflexivity |]); cbn; repeat split; left; repeat split; try lia; auto.
Qed.

Lemma within_fresh : forall ts lim t x, t <= started lim -> started lim <= x -> forward x ts ->
  within t (window lim) (passed lim ts) <= most lim - emitted lim.
Proof.
  induction ts as [|y ts IH]; intros lim t x H1 H2 F; [cbn; lia |].
  destruct F as [F1 F2]. cbn [passed].
  destruct (should_emit_cases lim y ltac:(lia)) as (lim' & b & -> & M & W & C).
  destruct C as [(C1 & C2 & C3) | (C1 & C2 & C3)].
  - specialize (IH lim' t y ltac:(lia) ltac:(lia) F2). rewrite M, W in IH.
    destruct C3 as [(-> & C4 & C5) | (-> & C4 & C5)].
    + rewrite within_cons. destruct ((t <=? y) && (y <? t + window lim)); lia.
    + lia.
  - assert (K := within_late t (window lim) lim' ts y ltac:(lia) F2).
    destruct C3 as [(-> & _) | (-> & _)]; [| lia].
    rewrite within_cons, K. replace (y <? t + window lim) with false by (symmetry; apply Nat.ltb_ge; lia).
    rewrite andb_false_r. lia.
Qed.

Lemma within_old : forall ts lim t x, started lim <= x -> t <= x -> forward x ts ->
  within t (window lim) (passed lim ts) <= most lim - emitted lim + most lim.
Proof.
  induction ts as [|y ts IH]; intros lim t x H1 H2 F; [cbn; lia |].
  destruct F as [F1 F2]. cbn [passed].
  destruct (should_emit_cases lim y ltac:(lia)) as (lim' & b & -> & M & W & C).
  destruct C as [(C1 & C2 & C3) | (C1 & C2 & C3)].
  - specialize (IH lim' t y ltac:(lia) ltac:(lia) F2). rewrite M, W in IH.
    destruct C3 as [(-> & C4 & C5) | (-> & C4 & C5)].
    + rewrite within_cons. destruct ((t <=? y) && (y <? t + window lim)); lia.
    + lia.
  - assert (K := within_fresh ts lim' t y ltac:(lia) ltac:(lia) F2). rewrite M, W in K.
    destruct C3 as [(-> & C4 & C5) | (-> & C4 & C5)].
    + rewrite within_cons. destruct ((t <=? y) && (y <? t + window lim)); lia.
    + lia.
Qed.

Lemma within_any : forall ts lim t x, started lim <= x -> forward x ts ->
  within t (window lim) (passed lim ts) <= 2 * most lim.
Proof.
  induction ts as [|y ts IH]; intros lim t x H1 F; [cbn; lia |].
  destruct F as [F1 F2]. destruct (le_lt_dec t y) as [T|T].
  - pose proof (within_old (y :: ts) lim t y ltac:(lia) T (conj (le_n y) F2)). lia.
  - cbn [passed]. destruct (should_emit_cases lim y ltac:(lia)) as (lim' & b & -> & M & W & C).
    specialize (IH lim' t y ltac:(lia) F2). rewrite M, W in IH.
    destruct b; [| exact IH]. rewrite within_cons.
    replace (t <=? y) with false by (symmetry; apply Nat.leb_gt; lia). exact IH.
Qed.

(* Only messages that are severe enough reach the limiter. *)
Lemma send_all_passed m ms : forall lim,
  map fst (send_all (Some m) lim ms) = passed lim (map fst (filter (fun p => should_log (snd p) m) ms)).
Proof.
  induction ms as [|[t l] ms IH]; intros lim; [reflexivity |].
  cbn [send_all send_log filter snd]. destruct (should_log l m); cbn [map fst passed].
  - destruct (should_emit lim t) as [lim' []]; cbn [map fst]; now rewrite IH.
  - apply IH.
Qed.

Lemma forward_le x y ts : x <= y -> forward y ts -> forward x ts.
Proof. destruct ts; cbn; [trivial |]. intuition lia. Qed.

Lemma forward_filter (f : nat * level -> bool) ms : forall x, forward x (map fst ms) ->
  forward x (map fst (filter f ms)).
Proof.
  induction ms as [|[t l] ms IH]; intros x F; [exact I |]. cbn [map fst] in F. destruct F as [F1 F2].
  cbn [filter]. destruct (f (t, l)); cbn [map fst].
  - split; [exact F1 | now apply IH].
  - apply IH. eapply forward_le; eassumption.
Qed.

(* ---------- saves ---------- *)

Section Saves.
Context {L : store}.

Lemma write_end (b l : list byte) : write_at (length l) b l = l ++ b.
Proof.
  unfold write_at. rewrite Nat.sub_diag. cbn [repeat]. rewrite app_nil_r, firstn_all.
  rewrite skipn_all2 by lia. now rewrite app_nil_r.
Qed.

(* While a save is under way the target is not touched. *)
Definition midway (d0 d : disk) (i : nat) : Prop :=
  target d = target d0 /\ temp d = Some i /\ (forall j, target d0 = Some j -> j <> i) /\
  (forall j, target d0 = Some j -> contents d j = contents d0 j).

Lemma midway_read d0 d i : midway d0 d i -> read_target d = read_target d0.
Proof.
  intros (T & _ & _ & C). unfold read_target. rewrite T. destruct (target d0) as [j|] eqn:E; [| reflexivity].
  cbn. now rewrite C.
Qed.

Lemma midway_write d0 d i n b : midway d0 d i ->
  midway d0 (fst (fst (write d (i, n) b))) i.
Proof.
  intros (T & M & D & C). unfold midway, write, put. cbn. repeat split; auto.
  intros j H. destruct (Nat.eqb_spec j i) as [->|_]; [now destruct (D i) | now apply C].
Qed.

Lemma crash_stuck k d p : state p <> Running -> crash k d p = (d, p).
Proof.
  intros H. induction k as [|k IH]; [reflexivity |]. cbn. unfold advance. destruct (state p); try congruence; exact IH.
Qed.

(* From the middle of a save on. *)
Lemma crash_midway d0 i new : forall chunks rest k d,
  midway d0 d i -> contents d i ++ concat chunks ++ rest = new ->
  length (concat chunks ++ rest) <= space d ->
  let (d', p) := crash k d {| handle := (i, length (contents d i));
                              todo := map Write chunks ++ [Flush rest; Rename]; state := Running |} in
  (read_target d' = read_target d0 \/ read_target d' = Some new) /\
  (state p = Finished -> read_target d' = Some new) /\ state p <> Failed /\
  (length chunks + 2 <= k -> state p = Finished).
Proof.
  induction chunks as [|c chunks IH]; intros rest k d M E S.
  - cbn [map app concat] in *. destruct k as [|k].
    { cbn. rewrite (midway_read _ _ _ M). repeat split; auto; try discriminate; intros; exfalso; cbn in *; lia. }
    cbn [crash advance state todo handle].
    assert (W : write d (i, length (contents d i)) rest =
                (put d i (contents d i ++ rest) (space d - length rest), (i, length (contents d i) + length rest), true)).
    { unfold write. cbn [fst snd]. rewrite Nat.min_l by exact S. rewrite firstn_all, write_end.
      replace (length rest <=? space d) with true by (symmetry; apply Nat.leb_le; exact S). reflexivity. }
    pose proof (midway_write d0 d i (length (contents d i)) rest M) as M'. rewrite W in *. cbn [fst] in M'.
    destruct k as [|k].
    { cbn. rewrite (midway_read _ _ _ M'). repeat split; auto; try discriminate; intros; exfalso; cbn in *; lia. }
    cbn [crash advance state todo handle]. destruct M' as (T & Tm & D & C). rewrite Tm.
    rewrite crash_stuck by discriminate. unfold read_target. cbn [target contents option_map state].
    assert (R : contents (put d i (contents d i ++ rest) (space d - length rest)) i = new).
    { cbn. now rewrite Nat.eqb_refl. }
    rewrite R. repeat split; auto; discriminate.
  - cbn [map app concat] in *. rewrite <- app_assoc in *. rewrite app_length in S.
    destruct k as [|k].
    { cbn. rewrite (midway_read _ _ _ M). repeat split; auto; try discriminate; intros; exfalso; cbn in *; lia. }
    cbn [crash advance state todo handle].
    assert (W : write d (i, length (contents d i)) c =
                (put d i (contents d i ++ c) (space d - length c), (i, length (contents d i) + length c), true)).
    { unfold write. cbn [fst snd]. rewrite Nat.min_l by lia. rewrite firstn_all, write_end.
      replace (length c <=? space d) with true by (symmetry; apply Nat.leb_le; lia). reflexivity. }
    pose proof (midway_write d0 d i (length (contents d i)) c M) as M'. rewrite W in *. cbn [fst] in M'.
    specialize (IH rest k (put d i (contents d i ++ c) (space d - length c)) M').
    cbn [put contents space] in IH. rewrite Nat.eqb_refl in IH. rewrite (app_length (contents d i) c) in IH.
    rewrite <- app_assoc in IH. specialize (IH E ltac:(lia)). cbn [put] in *.
    destruct (crash k _ _) as [d' p]. destruct IH as (I1 & I2 & I3 & I4). repeat split; auto.
    intros Hk. apply I4. cbn in Hk. lia.
Qed.

(* A disk that is full before the last part. *)
Lemma crash_full d0 i : forall chunks rest k d n,
  midway d0 d i -> space d < length (concat chunks) ->
  let (d', p) := crash k d {| handle := (i, n); todo := map Write chunks ++ [Flush rest; Rename]; state := Running |} in
  read_target d' = read_target d0 /\ state p <> Finished /\ (length chunks <= k -> state p = Failed).
Proof.
  induction chunks as [|c chunks IH]; intros rest k d n M S; [cbn in S; lia |].
  cbn [map app concat] in *. rewrite app_length in S.
  destruct k as [|k].
  { cbn. rewrite (midway_read _ _ _ M). repeat split; auto; try discriminate; intros; exfalso; cbn in *; lia. }
  cbn [crash advance state todo handle].
  pose proof (midway_write d0 d i n c M) as M'.
  destruct (write d (i, n) c) as [[d1 h1] ok] eqn:W. cbn [fst] in M'.
  assert (Hh : fst h1 = i) by (unfold write in W; injection W as _ <- _; reflexivity).
  assert (Ok : ok = (length c <=? space d)) by (unfold write in W; now injection W as _ _ <-).
  assert (Sp : space d1 = space d - Nat.min (length c) (space d)) by (unfold write in W; now injection W as <- _ _).
  destruct ok.
  - symmetry in Ok. apply Nat.leb_le in Ok. destruct h1 as [i1 n1]. cbn in Hh. subst i1.
    specialize (IH rest k d1 n1 M' ltac:(lia)).
    destruct (crash k d1 _) as [d' p]. destruct IH as (I1 & I2 & I3). repeat split; auto.
    intros Hk. apply I3. cbn in Hk. lia.
  - rewrite crash_stuck by discriminate. rewrite (midway_read _ _ _ M'). repeat split. discriminate.
Qed.

(* The first operation. *)
Lemma create_midway d l : proper d ->
  exists d1 i, advance d {| handle := (0, 0); todo := Create :: l; state := Running |} =
    (d1, {| handle := (i, 0); todo := l; state := Running |}) /\
    midway d d1 i /\ contents d1 i = [] /\ space d1 = space d.
Proof.
  intros (P1 & P2 & P3). cbn [advance state todo]. destruct (temp d) as [i|] eqn:E.
  - exists (put d i [] (space d)), i. split; [reflexivity |]. unfold midway. cbn. rewrite Nat.eqb_refl.
    repeat split; auto.
    + intros j H ->. now apply (P3 i).
    + intros j H. destruct (Nat.eqb_spec j i) as [->|_]; [now destruct (P3 i H) | reflexivity].
  - eexists _, (next d). split; [reflexivity |]. unfold midway. cbn. rewrite Nat.eqb_refl. repeat split; auto.
    + intros j H ->. apply P1 in H. lia.
    + intros j H. destruct (Nat.eqb_spec j (next d)) as [->|_]; [apply P1 in H; lia | reflexivity].
Qed.

End Saves.
