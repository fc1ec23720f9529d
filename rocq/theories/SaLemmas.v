(* Lemmas on semantic actions. *)
From Coq Require Import List Ascii String Bool Arith Lia.
Import ListNotations.
From Verif Require Import SaModel SaSpec.
Open Scope list_scope.

(* ------------------------------------------------------------------ *)
(* Regular expressions                                                  *)

Lemma in_then k x c r : In (c, r) (then_with k x) <-> exists c2, In (c2, r) (k (snd x)) /\ c = fst x ++ c2.
Proof.
  unfold then_with. rewrite in_map_iff. split.
  - intros ([c2 r2] & E & I). cbn in E. injection E as <- <-. exists c2. auto.
  - intros (c2 & I & ->). exists (c2, r). auto.
Qed.
Lemma in_cat a b l c r : In (c, r) (parses (Cat a b) l) <-> exists c1 m c2, In (c1, m) (parses a l) /\ In (c2, r) (parses b m) /\ c = c1 ++ c2.
Proof.
  cbn [parses]. rewrite in_flat_map. split.
  - intros ([c1 m] & I & J). apply in_then in J. destruct J as (c2 & J & ->). exists c1, m, c2. auto.
  - intros (c1 & m & c2 & I & J & ->). exists (c1, m). split; [exact I|]. apply in_then. exists c2. auto.
Qed.
Lemma in_alt a b l c r : In (c, r) (parses (Alt a b) l) <-> In (c, r) (parses a l) \/ In (c, r) (parses b l).
Proof. cbn [parses]. apply in_app_iff. Qed.
Lemma in_chr p l c r : In (c, r) (parses (Chr p) l) <-> c = [] /\ exists a, p a = true /\ l = a :: r.
Proof.
  cbn [parses]. destruct l as [|a l]; [split; [intros []|intros (_ & a & _ & E); discriminate]|]. destruct (p a) eqn:E.
  - split; [intros [H|[]]; injection H as <- <-; eauto|]. intros (-> & b & _ & H). injection H as <- <-. left. reflexivity.
  - split; [intros []|]. intros (-> & b & P & H). injection H as <- <-. congruence.
Qed.
Lemma in_one a l c r : In (c, r) (parses (chr a) l) <-> c = [] /\ l = a :: r.
Proof.
  unfold chr. rewrite in_chr. split.
  - intros (-> & b & E & ->). apply Ascii.eqb_eq in E. subst b. auto.
  - intros (-> & ->). split; [reflexivity|]. exists a. split; [apply Ascii.eqb_refl|reflexivity].
Qed.
Lemma in_word w : forall l c r, In (c, r) (parses (word w) l) <-> c = [] /\ l = w ++ r.
Proof.
  induction w as [|a w IH]; intros l c r.
  - cbn [word parses]. split; [intros [H|[]]; injection H as <- <-; auto|intros (-> & ->); left; reflexivity].
  - cbn [word]. rewrite in_cat. split.
    + intros (c1 & m & c2 & I & J & ->). apply in_one in I. apply IH in J. destruct I as (-> & ->), J as (-> & ->). auto.
    + intros (-> & ->). exists [], (w ++ r), []. rewrite in_one, IH. auto.
Qed.

Inductive many (P : text -> Prop) : text -> Prop :=
| Many_nil : many P []
| Many_cons u w : P u -> many P w -> many P (u ++ w).
Lemma in_star (f : text -> list (caps * text)) (P : text -> Prop) : (forall u, P u -> u <> []) -> (forall l c r, In (c, r) (f l) <-> c = [] /\ exists u, P u /\ l = u ++ r) ->
  forall n l c r, List.length l <= n -> (In (c, r) (star f n l) <-> c = [] /\ exists w, many P w /\ l = w ++ r).
Proof.
  intros NE F. induction n as [|n IH]; intros l c r Le.
  - destruct l; [|cbn in Le; lia]. cbn [star]. split.
    + intros [H|[]]. injection H as <- <-. split; [reflexivity|]. exists []. split; [constructor|reflexivity].
    + intros (-> & w & _ & E). symmetry in E. apply app_eq_nil in E. destruct E as [_ ->]. left. reflexivity.
  - cbn [star]. rewrite in_app_iff, in_flat_map. split.
    + intros [([c1 m] & I & J)|[H|[]]].
      * apply F in I. destruct I as (-> & u & Pu & ->). cbn [snd] in J. destruct (Nat.ltb_spec (List.length m) (List.length (u ++ m))) as [Lt|]; [|destruct J].
        apply in_then in J. destruct J as (c2 & J & ->). cbn [snd fst] in *. apply IH in J; [|lia]. destruct J as (-> & w & M & ->). split; [reflexivity|]. exists (u ++ w).
        split; [constructor; assumption|rewrite app_assoc; reflexivity].
      * injection H as <- <-. split; [reflexivity|]. exists []. split; [constructor|reflexivity].
    + intros (-> & w & M & ->). inversion M as [E|u w' Pu M' E]; subst w; [right; left; reflexivity|]. left. exists ([], w' ++ r).
      split; [apply F; split; [reflexivity|]; exists u; split; [exact Pu|rewrite <- app_assoc; reflexivity]|]. cbn [snd].
      assert (Lu : 0 < List.length u) by (destruct u; [destruct (NE [] Pu); reflexivity|cbn; lia]). rewrite !app_length in *.
      destruct (Nat.ltb_spec (List.length w' + List.length r) (List.length u + List.length w' + List.length r)) as [_|]; [|lia]. apply in_then. exists []. cbn [snd fst]. split; [|reflexivity].
      apply IH; [rewrite app_length; lia|]. split; [reflexivity|]. exists w'. auto.
Qed.
Lemma in_blanks l c r : In (c, r) (parses blanks l) <-> c = [] /\ exists n, l = spaces n ++ r.
Proof.
  unfold blanks. cbn [parses]. rewrite (in_star (parses (chr blank)) (fun u => u = [blank])).
  - split; (intros (-> & H); split; [reflexivity|]).
    + destruct H as (w & M & ->). assert (E : exists n, w = spaces n). { induction M as [|u w Pu M [n ->]]; [exists 0; reflexivity|]. exists (S n). rewrite Pu. reflexivity. } destruct E as (n & ->). eauto.
    + destruct H as (n & ->). exists (spaces n). split; [|reflexivity]. clear. induction n as [|n IH]; [constructor|]. exact (Many_cons (fun u => u = [blank]) [blank] (spaces n) eq_refl IH).
  - intros u ->. discriminate.
  - intros l0 c0 r0. rewrite in_one. split; (intros (-> & H); split; [reflexivity|]).
    + exists [blank]. auto.
    + destruct H as (u & -> & ->). reflexivity.
  - lia.
Qed.
Definition piece (u : text) : Prop := (exists a, a <> backslash /\ a <> quote /\ u = [a]) \/ u = [backslash; backslash] \/ u = [backslash; quote].
Lemma in_string l c r : In (c, r) (parses re_string l) <-> c = [] /\ exists w m, escaped w m /\ l = quote :: w ++ quote :: r.
Proof.
  assert (St : forall l c r, In (c, r) (parses (Star (Alt (noneof [backslash; quote]) (Alt (word [backslash; backslash]) (word [backslash; quote])))) l) <-> c = [] /\ exists w, many piece w /\ l = w ++ r).
  { clear. intros l c r. match goal with |- context [parses (Star ?x) l] => change (parses (Star x) l) with (star (parses x) (List.length l) l) end. apply in_star; [intros u [(a & _ & _ & ->)|[-> | ->]]; discriminate| |lia]. clear. intros l c r. rewrite (in_alt (noneof _) (Alt _ _) l), (in_alt (word _) (word _) l), !in_word. unfold noneof. rewrite in_chr. split.
    - intros [(-> & a & P & ->)|[(-> & ->)|(-> & ->)]]; (split; [reflexivity|]).
      + exists [a]. split; [left; exists a|reflexivity]. cbn [existsb] in P. apply negb_true_iff in P. rewrite !orb_false_iff in P. destruct P as (P1 & P2 & _). apply Ascii.eqb_neq in P1, P2. auto.
      + exists [backslash; backslash]. split; [right; left; reflexivity|reflexivity].
      + exists [backslash; quote]. split; [right; right; reflexivity|reflexivity].
    - intros (-> & u & [(a & A & B & ->)|[-> | ->]] & ->).
      + left. split; [reflexivity|]. exists a. split; [|reflexivity]. cbn [existsb]. apply Ascii.eqb_neq in A, B. rewrite A, B. reflexivity.
      + right. left. split; reflexivity.
      + right. right. split; reflexivity. }
  assert (Es : forall w, many piece w <-> exists m, escaped w m).
  { intro w. split.
    - induction 1 as [|u w Pu M [m IH]]; [exists []; constructor|]. destruct Pu as [(a & A & B & ->)|[-> | ->]]; cbn [app]; eexists; constructor; eassumption.
    - intros (m & E). induction E as [|a w m A B E IH|w m E IH|w m E IH]; [constructor| | |].
      + apply (Many_cons piece [a] w); [left; eauto|exact IH].
      + apply (Many_cons piece [backslash; backslash] w); [right; left; reflexivity|exact IH].
      + apply (Many_cons piece [backslash; quote] w); [right; right; reflexivity|exact IH]. }
  unfold re_string. rewrite in_cat. split.
  - intros (c1 & m & c2 & I & J & ->). apply in_one in I. destruct I as (-> & ->). apply in_cat in J. destruct J as (c3 & m2 & c4 & I & J & ->). apply St in I. apply in_one in J. destruct I as (-> & w & M & ->), J as (-> & ->).
    split; [reflexivity|]. apply Es in M. destruct M as (x & M). eauto.
  - intros (-> & w & m & E & ->). exists [], (w ++ quote :: r), []. split; [apply in_one; auto|]. split; [|reflexivity]. apply in_cat. exists [], (quote :: r), []. split; [apply St; split; [reflexivity|]; exists w; split; [apply Es; eauto|reflexivity]|].
    split; [apply in_one; auto|reflexivity].
Qed.
Lemma in_group n a l c r : (forall c r, In (c, r) (parses a l) -> exists u, l = u ++ r) ->
  (In (c, r) (parses (Group n a) l) <-> exists u c1, In (c1, r) (parses a l) /\ l = u ++ r /\ c = (n, u) :: c1).
Proof.
  intro Suf. cbn [parses]. rewrite in_map_iff. split.
  - intros ([c1 r1] & E & I). cbn [snd fst] in E. injection E as <- <-. destruct (Suf c1 r1 I) as (u & ->). exists u, c1. split; [exact I|]. split; [reflexivity|]. f_equal. f_equal.
    rewrite app_length. replace (List.length u + List.length r1 - List.length r1) with (List.length u) by lia. rewrite firstn_app, Nat.sub_diag, firstn_all. cbn. apply app_nil_r.
  - intros (u & c1 & I & -> & ->). exists (c1, r). split; [|exact I]. cbn [snd fst]. f_equal. f_equal. f_equal. rewrite app_length. replace (List.length u + List.length r - List.length r) with (List.length u) by lia.
    rewrite firstn_app, Nat.sub_diag, firstn_all. cbn. apply app_nil_r.
Qed.
Lemma in_argument l c r : In (c, r) (parses re_argument l) <->
  exists w a, written w a /\ l = w ++ r /\ c = [(match a with Message _ => 2 | _ => 3 end, w)].
Proof.
  unfold re_argument. rewrite in_alt, !in_group.
  - split.
    + intros [(u & c1 & I & -> & ->)|(u & c1 & I & -> & ->)].
      * apply in_string in I. destruct I as (-> & w & m & E & El). exists u, (Message m). split; [|auto]. assert (u = quote :: w ++ [quote]) as ->.
        { apply (app_inv_tail r). rewrite El. cbn [app]. rewrite <- app_assoc. reflexivity. } constructor. exact E.
      * unfold oneof in I. apply in_chr in I. destruct I as (-> & a & P & El). assert (u = [a]) as -> by (apply (app_inv_tail r); exact El). apply existsb_exists in P. destruct P as (b & J & Eb). apply Ascii.eqb_eq in Eb. subst b.
        exists [a]. cbn in J. destruct J as [<-|[<-|[<-|[]]]]; [exists Subject|exists Predicate|exists Object]; repeat split; constructor.
    + intros (w & a & W & -> & ->). destruct W as [w m E| | |].
      * left. exists (quote :: w ++ [quote]), []. split; [|auto]. apply in_string. split; [reflexivity|]. exists w, m. split; [exact E|]. cbn [app]. rewrite <- app_assoc. reflexivity.
      * right. exists ["s"%char], []. split; [|auto]. apply in_chr. split; [reflexivity|]. exists "s"%char. split; reflexivity.
      * right. exists ["p"%char], []. split; [|auto]. apply in_chr. split; [reflexivity|]. exists "p"%char. split; reflexivity.
      * right. exists ["o"%char], []. split; [|auto]. apply in_chr. split; [reflexivity|]. exists "o"%char. split; reflexivity.
  - intros c0 r0 I. apply in_chr in I. destruct I as (_ & a & _ & ->). exists [a]. reflexivity.
  - intros c0 r0 I. apply in_string in I. destruct I as (_ & w & m & _ & ->). exists (quote :: w ++ [quote]). cbn [app]. rewrite <- app_assoc. reflexivity.
Qed.
(* The captures of a text. *)
Inductive parsed : text -> caps -> Prop :=
| Parsed_intro i j k l m d w a : written w a ->
    parsed (spaces i ++ keyword d ++ spaces j ++ t "(" ++ spaces k ++ w ++ spaces l ++ t ")" ++ spaces m) [(1, keyword d); (match a with Message _ => 2 | _ => 3 end, w)].
Lemma in_test s c : In (c, []) (parses re_test s) <-> parsed s c.
Proof.
  assert (G1 : forall l c r, In (c, r) (parses (Group 1 (Alt (word (t "fail")) (word (t "print")))) l) <-> exists d, c = [(1, keyword d)] /\ l = keyword d ++ r).
  { clear. intros l c r. rewrite in_group.
    - split.
      + intros (u & c1 & I & El & ->). apply in_alt in I. rewrite !in_word in I. destruct I as [(-> & E)|(-> & E)]; [exists Fail|exists Print]; rewrite El in E; apply app_inv_tail in E; subst u; auto.
      + intros (d & -> & ->). exists (keyword d), []. split; [|auto]. apply in_alt. rewrite !in_word. destruct d; [right|left]; auto.
    - intros c0 r0 I. apply in_alt in I. rewrite !in_word in I. destruct I as [(_ & ->)|(_ & ->)]; eauto. }
  unfold re_test. split.
  - intro H. repeat (apply in_cat in H; destruct H as (? & ? & ? & ? & H & ->)). 
    repeat match goal with
    | I : In (_, _) (parses blanks _) |- _ => apply in_blanks in I; destruct I as (-> & ? & ->)
    | I : In (_, _) (parses (Group 1 _) _) |- _ => apply G1 in I; destruct I as (? & -> & ->)
    | I : In (_, _) (parses (chr _) _) |- _ => apply in_one in I; destruct I as (-> & ->)
    | I : In (_, _) (parses re_argument _) |- _ => apply in_argument in I; destruct I as (? & ? & ? & -> & ->)
    end.
    rewrite app_nil_r. cbn [app]. match goal with W : written _ _ |- _ => exact (Parsed_intro _ _ _ _ _ _ _ _ W) end.
  - intros [i j k l m d w a W]. apply in_cat. exists [], (keyword d ++ spaces j ++ t "(" ++ spaces k ++ w ++ spaces l ++ t ")" ++ spaces m), [(1, keyword d); (match a with Message _ => 2 | _ => 3 end, w)].
    split; [apply in_blanks; eauto|]. split; [|reflexivity]. apply in_cat. exists [(1, keyword d)], (spaces j ++ t "(" ++ spaces k ++ w ++ spaces l ++ t ")" ++ spaces m), [(match a with Message _ => 2 | _ => 3 end, w)].
    split; [apply G1; eauto|]. split; [|reflexivity]. apply in_cat. exists [], (t "(" ++ spaces k ++ w ++ spaces l ++ t ")" ++ spaces m), [(match a with Message _ => 2 | _ => 3 end, w)].
    split; [apply in_blanks; eauto|]. split; [|reflexivity]. apply in_cat. exists [], (spaces k ++ w ++ spaces l ++ t ")" ++ spaces m), [(match a with Message _ => 2 | _ => 3 end, w)].
    split; [apply in_one; auto|]. split; [|reflexivity]. apply in_cat. exists [], (w ++ spaces l ++ t ")" ++ spaces m), [(match a with Message _ => 2 | _ => 3 end, w)].
    split; [apply in_blanks; eauto|]. split; [|reflexivity]. apply in_cat. exists [(match a with Message _ => 2 | _ => 3 end, w)], (spaces l ++ t ")" ++ spaces m), [].
    split; [apply in_argument; eauto|]. split; [|rewrite app_nil_r; reflexivity]. apply in_cat. exists [], (t ")" ++ spaces m), []. split; [apply in_blanks; eauto|]. split; [|reflexivity].
    apply in_cat. exists [], (spaces m), []. split; [apply in_one; auto|]. split; [|reflexivity]. apply in_blanks. split; [reflexivity|]. exists m. rewrite app_nil_r. reflexivity.
Qed.

(* ------------------------------------------------------------------ *)
(* One reading                                                          *)

Lemma spaces_one i j x y u v : x <> blank -> y <> blank -> spaces i ++ x :: u = spaces j ++ y :: v -> x = y /\ u = v.
Proof.
  intros X Y. revert j. induction i as [|i IH]; intros [|j] E; cbn in E.
  - injection E as -> ->. auto.
  - injection E as -> _. contradiction.
  - injection E as <- _. contradiction.
  - injection E as E. apply (IH j E).
Qed.
Lemma escaped_one w m : escaped w m -> forall w' m' r r', escaped w' m' -> w ++ quote :: r = w' ++ quote :: r' -> w = w' /\ m = m' /\ r = r'.
Proof.
  assert (QB : quote <> backslash) by (intro H; discriminate H). assert (QB' := not_eq_sym QB).
  induction 1 as [|a w m A B E IH|w m E IH|w m E IH]; intros w' m' r r' E' Eq; inversion E' as [|a' w1 m1 A' B' E1|w1 m1 E1|w1 m1 E1]; subst; cbn [app] in Eq; try (exfalso; injection Eq; intros; congruence).
  - injection Eq as ->. auto.
  - injection Eq as -> Eq. destruct (IH _ _ _ _ E1 Eq) as (-> & -> & ->). auto.
  - injection Eq as Eq. destruct (IH _ _ _ _ E1 Eq) as (-> & -> & ->). auto.
  - injection Eq as Eq. destruct (IH _ _ _ _ E1 Eq) as (-> & -> & ->). auto.
Qed.
Lemma written_one w a w' a' r r' : written w a -> written w' a' -> w ++ r = w' ++ r' -> w = w' /\ a = a'.
Proof.
  intros W W' E. destruct W as [w m Es| | |], W' as [w' m' Es'| | |]; cbn in E; try discriminate E; auto.
  injection E as E. rewrite <- !app_assoc in E. destruct (escaped_one _ _ Es _ _ _ _ Es' E) as (-> & -> & _). auto.
Qed.
Lemma written_start w a r : written w a -> exists x u, w ++ r = x :: u /\ x <> blank.
Proof. destruct 1; cbn; eexists; eexists; (split; [reflexivity|discriminate]). Qed.
Lemma call_parsed s d a : call s d a -> exists w, written w a /\ parsed s [(1, keyword d); (match a with Message _ => 2 | _ => 3 end, w)].
Proof. intros [i j k l m d' w a' W]. exists w. split; [exact W|constructor; exact W]. Qed.
Lemma call_one s d a c : call s d a -> parsed s c -> exists w, written w a /\ c = [(1, keyword d); (match a with Message _ => 2 | _ => 3 end, w)].
Proof.
  intros H P. destruct H as [i j k l m d w a W]. inversion P as [i' j' k' l' m' d' w' a' W' E Ec]. clear P Ec c.
  change (spaces i' ++ keyword d' ++ spaces j' ++ t "(" ++ spaces k' ++ w' ++ spaces l' ++ t ")" ++ spaces m' = spaces i ++ keyword d ++ spaces j ++ t "(" ++ spaces k ++ w ++ spaces l ++ t ")" ++ spaces m) in E.
  assert (K : forall d r, exists x u, keyword d ++ r = x :: u /\ x <> blank) by (intros [] r; eexists; eexists; (split; [reflexivity|discriminate])).
  assert (D : d' = d /\ spaces j' ++ t "(" ++ spaces k' ++ w' ++ spaces l' ++ t ")" ++ spaces m' = spaces j ++ t "(" ++ spaces k ++ w ++ spaces l ++ t ")" ++ spaces m).
  { destruct (K d' (spaces j' ++ t "(" ++ spaces k' ++ w' ++ spaces l' ++ t ")" ++ spaces m')) as (x & u & E1 & N1), (K d (spaces j ++ t "(" ++ spaces k ++ w ++ spaces l ++ t ")" ++ spaces m)) as (y & v & E2 & N2).
    rewrite E1, E2 in E. destruct (spaces_one _ _ _ _ _ _ N1 N2 E) as [-> ->]. rewrite <- E1 in E2. clear -E2. destruct d, d'; cbn in E2; try discriminate E2; injection E2 as E2; auto. }
  destruct D as [-> E2]. clear E K. cbn [t list_ascii_of_string app] in E2. assert (E3 := spaces_one j' j "("%char "("%char _ _ ltac:(discriminate) ltac:(discriminate) E2). destruct E3 as [_ E3].
  destruct (written_start w' a' (spaces l' ++ ")"%char :: spaces m') W') as (x & u & F1 & N1), (written_start w a (spaces l ++ ")"%char :: spaces m) W) as (y & v & F2 & N2).
  rewrite F1, F2 in E3. destruct (spaces_one _ _ _ _ _ _ N1 N2 E3) as [-> ->]. rewrite <- F1 in F2. destruct (written_one _ _ _ _ _ _ W W' F2) as [<- <-]. exists w. auto.
Qed.
Lemma captures_none s : captures re_test s = None <-> forall d a, ~ call s d a.
Proof.
  unfold captures. split.
  - intros H d a C. destruct (call_parsed s d a C) as (w & W & P). apply in_test in P. destruct (filter whole (parses re_test s)) eqn:F; [|discriminate].
    match type of P with In ?x _ => assert (I : In x (filter whole (parses re_test s))) end; [apply filter_In; split; [exact P|reflexivity]|rewrite F in I; destruct I].
  - intro H. destruct (filter whole (parses re_test s)) as [|[c r] l] eqn:F; [reflexivity|]. exfalso. assert (I : In (c, r) (filter whole (parses re_test s))) by (rewrite F; left; reflexivity).
    apply filter_In in I. unfold whole in I. cbn [snd] in I. destruct I as [I E]. destruct r; [|discriminate]. apply in_test in I. destruct I as [i j k l' m d w a W]. apply (H d a). constructor. exact W.
Qed.
Lemma captures_some s c : captures re_test s = Some c -> parsed s c.
Proof.
  unfold captures. intro H. destruct (filter whole (parses re_test s)) as [|[c' r] l] eqn:F; [discriminate|]. injection H as <-. assert (I : In (c', r) (filter whole (parses re_test s))) by (rewrite F; left; reflexivity).
  apply filter_In in I. unfold whole in I. cbn [snd] in I. destruct I as [I E]. destruct r; [|discriminate]. apply in_test, I.
Qed.
Lemma call_captures s d a : call s d a -> exists w, written w a /\ captures re_test s = Some [(1, keyword d); (match a with Message _ => 2 | _ => 3 end, w)].
Proof.
  intro C. destruct (captures re_test s) as [c|] eqn:E; [|destruct (proj1 (captures_none s) E d a C)]. destruct (call_one s d a c C (captures_some _ _ E)) as (w & W & ->). eauto.
Qed.

(* ------------------------------------------------------------------ *)
(* Escapes                                                              *)

Lemma quote_backslash : Ascii.eqb quote backslash = false. Proof. reflexivity. Qed.
Definition bs := replace2 backslash backslash [backslash].
Definition qs := replace2 backslash quote [quote].
Lemma bs_pair w : bs (backslash :: backslash :: w) = backslash :: bs w.
Proof. reflexivity. Qed.
Lemma bs_other a w : a <> backslash -> bs (a :: w) = a :: bs w.
Proof. intro N. destruct w as [|b w]; [reflexivity|]. unfold bs. cbn [replace2]. apply Ascii.eqb_neq in N. rewrite N. reflexivity. Qed.
Lemma bs_quote w : bs (backslash :: quote :: w) = backslash :: quote :: bs w.
Proof. transitivity (backslash :: bs (quote :: w)); [reflexivity|]. rewrite bs_other by discriminate. reflexivity. Qed.
Lemma qs_other a w : a <> backslash -> qs (a :: w) = a :: qs w.
Proof. intro N. destruct w as [|b w]; [reflexivity|]. unfold qs. cbn [replace2]. apply Ascii.eqb_neq in N. rewrite N. reflexivity. Qed.
Lemma qs_quote w : qs (backslash :: quote :: w) = quote :: qs w.
Proof. reflexivity. Qed.
(* a backslash before anything that does not begin with a quote *)
Lemma qs_backslash w : (forall v, w <> quote :: v) -> qs (backslash :: w) = backslash :: qs w.
Proof.
  intro N. destruct w as [|b w]; [reflexivity|]. unfold qs. cbn [replace2]. assert (Ascii.eqb b quote = false) as ->; [|rewrite andb_false_r; reflexivity]. apply Ascii.eqb_neq. intros ->. destruct (N w); reflexivity.
Qed.
Lemma escaped_start w m : escaped w m -> forall v, bs w <> quote :: v.
Proof. destruct 1 as [|a w m A B E|w m E|w m E]; intro v; [discriminate|rewrite bs_other by exact A|rewrite bs_pair|rewrite bs_quote]; intro H; injection H; intros; congruence. Qed.
Lemma unescape w m : escaped w m -> qs (bs w) = m.
Proof.
  induction 1 as [|a w m A B E IH|w m E IH|w m E IH]; [reflexivity| | |].
  - rewrite bs_other, qs_other by exact A. rewrite IH. reflexivity.
  - rewrite bs_pair. rewrite qs_backslash by apply (escaped_start w m E). rewrite IH. reflexivity.
  - rewrite bs_quote, qs_quote, IH. reflexivity.
Qed.

Section Messages.
Context {L : lib}.
Lemma message_says w a d ctx m : written w a -> says ctx a m -> message_of [(1, keyword d); (match a with Message _ => 2 | _ => 3 end, w)] ctx = m.
Proof.
  intros W S. destruct W as [w x E| | |]; inversion S as [y|n H|p H|n H]; subst; unfold message_of; cbn [group Nat.eqb].
  - change (qs (bs (removelast (w ++ [quote]))) = m). rewrite removelast_last. apply unescape, E.
  - unfold shown. rewrite H. reflexivity.
  - rewrite H. reflexivity.
  - unfold shown. rewrite H. reflexivity.
Qed.

(* ------------------------------------------------------------------ *)
(* Names                                                                *)

Lemma text_eqb_iff a b : text_eqb a b = true <-> a = b.
Proof. unfold text_eqb. destruct (list_eq_dec ascii_dec a b); split; congruence. Qed.
Lemma text_eqb_refl a : text_eqb a a = true.
Proof. apply text_eqb_iff. reflexivity. Qed.
Lemma before_hash_based base iri : ~ In "#"%char base -> (before_hash iri = base <-> based base iri).
Proof.
  revert base. induction iri as [|a l IH]; intros base N; cbn [before_hash].
  - split; [intros <-; left; reflexivity|]. intros [<-|(f & E)]; [reflexivity|]. destruct base; discriminate.
  - destruct (Ascii.eqb_spec a "#") as [->|Na].
    + split; [intros <-; right; exists l; reflexivity|]. intros [<-|(f & E)]; [destruct N; left; reflexivity|]. destruct base as [|b base]; [reflexivity|]. injection E as <- _. destruct N. left. reflexivity.
    + split.
      * intros <-. destruct (proj1 (IH (before_hash l) ltac:(intro I; apply N; right; exact I)) eq_refl) as [E|(f & E)]; [left; congruence|right; exists f; cbn; congruence].
      * intros [<-|(f & E)].
        -- f_equal. apply IH; [intro I; apply N; right; exact I|left; reflexivity].
        -- destruct base as [|b base]; [injection E as -> _; contradiction|]. cbn in E. injection E as <- ->. f_equal. apply IH; [intro I; apply N; right; exact I|right; eauto].
Qed.
Lemma same_extension e iri : equal_without_fragment (extension_iri e) iri = true <-> based (extension_iri e) iri.
Proof.
  unfold equal_without_fragment. rewrite text_eqb_iff. assert (N : ~ In "#"%char (extension_iri e)).
  { intro I. assert (X : existsb (Ascii.eqb "#") (extension_iri e) = true) by (apply existsb_exists; exists "#"%char; split; [exact I|reflexivity]). destruct e; discriminate X. }
  rewrite (proj2 (before_hash_based (extension_iri e) (extension_iri e) N) (or_introl eq_refl)). rewrite <- (before_hash_based _ iri N). split; congruence.
Qed.

(* ------------------------------------------------------------------ *)
(* Whitespace and IRIs                                                  *)

Lemma white_iff a : white a = true <-> In (nat_of_ascii a) [9; 10; 11; 12; 13; 32].
Proof.
  unfold white. rewrite orb_true_iff, andb_true_iff, Nat.eqb_eq, !Nat.leb_le. cbn [In]. generalize (nat_of_ascii a). intro n. split; [|intros; lia]. intro H. assert (n = 9 \/ n = 10 \/ n = 11 \/ n = 12 \/ n = 13 \/ n = 32) by lia. intuition.
Qed.
Lemma trim_start_split l : exists u, l = u ++ trim_start l /\ space_only u.
Proof.
  induction l as [|a l (u & E & S)]; [exists []; split; [reflexivity|intros ? []]|]. cbn [trim_start]. destruct (white a) eqn:W; [|exists []; split; [reflexivity|intros ? []]].
  exists (a :: u). split; [cbn; congruence|]. intros x [<-|I]; [apply white_iff, W|apply S, I].
Qed.
Lemma trim_start_drop u a l : space_only u -> white a = false -> trim_start (u ++ a :: l) = a :: l.
Proof.
  intros S W. induction u as [|b u IH]; cbn [app trim_start]; [rewrite W; reflexivity|]. rewrite (proj2 (white_iff b) (S b (or_introl eq_refl))). apply IH. intros x I. apply S. right. exact I.
Qed.
Lemma trim_split l : exists u v, l = u ++ trim l ++ v /\ space_only u /\ space_only v.
Proof.
  destruct (trim_start_split l) as (u & E & S), (trim_start_split (rev (trim_start l))) as (v & F & T). exists u, (rev v). unfold trim. split; [|split; [exact S|intros x I; apply T, in_rev, I]].
  rewrite E at 1. f_equal. rewrite <- rev_app_distr, <- F, rev_involutive. reflexivity.
Qed.
Lemma trim_drop u v a b w : space_only u -> space_only v -> white a = false -> white b = false -> trim (u ++ a :: w ++ b :: v) = a :: w ++ [b].
Proof.
  intros U V A B. unfold trim. rewrite trim_start_drop by assumption. replace (a :: w ++ b :: v) with ((a :: w ++ [b]) ++ v) by (cbn; rewrite <- app_assoc; reflexivity). rewrite rev_app_distr. cbn [rev]. rewrite rev_app_distr. cbn [rev app].
  rewrite trim_start_drop; [|intros x I; apply V, in_rev; exact I|exact B]. cbn [rev]. rewrite rev_app_distr, rev_involutive. reflexivity.
Qed.
Lemma parse_names c k : parse_turtle (trim c) = Some k <-> names c k.
Proof.
  split.
  - unfold parse_turtle. intro H. destruct (trim (trim c)) as [|a w] eqn:E; [discriminate|]. destruct (rev w) as [|b w'] eqn:F; [discriminate|]. destruct (Ascii.eqb_spec a "<") as [->|]; [|discriminate]. destruct (Ascii.eqb_spec b ">") as [->|]; [|discriminate].
    cbn [andb] in H. assert (w = rev w' ++ [">"%char]) as -> by (rewrite <- (rev_involutive w), F; reflexivity).
    destruct (trim_split c) as (u & v & E1 & U & V), (trim_split (trim c)) as (u' & v' & E2 & U' & V'). rewrite E in E2. rewrite E2 in E1. exists (u ++ u'), (rev w'), (v' ++ v).
    split; [intros x I; apply in_app_or in I; destruct I; auto|]. split; [intros x I; apply in_app_or in I; destruct I; auto|]. split; [|exact H]. rewrite E1. rewrite <- !app_assoc. cbn. rewrite <- !app_assoc. reflexivity.
  - intros (u & w & v & U & V & -> & H). rewrite trim_drop by (auto; reflexivity). unfold parse_turtle. pose proof (trim_drop [] [] "<"%char ">"%char w) as T. cbn [app] in T. rewrite T by (auto; intros ? []). rewrite rev_app_distr. cbn [rev app Ascii.eqb Bool.eqb andb]. rewrite rev_involutive. exact H.
Qed.

Lemma get_put k v m x : get x (put k v m) = if text_eqb x k then Some v else get x m.
Proof.
  induction m as [|[k' v'] m IH]; cbn [put get]; [reflexivity|]. destruct (text_eqb k k') eqn:E; cbn [get].
  - apply text_eqb_iff in E. subst k'. destruct (text_eqb x k); reflexivity.
  - rewrite IH. destruct (text_eqb x k') eqn:F; [|reflexivity]. apply text_eqb_iff in F. subst k'. destruct (text_eqb x k) eqn:G; [|reflexivity]. apply text_eqb_iff in G. subst x. rewrite text_eqb_refl in E. discriminate.
Qed.
End Messages.
