(** Lemmas about the combinatorial enumerations. *)

Require Import List Arith Bool Lia Permutation Sorted Wf_nat.
Import ListNotations.
From Verif Require Import StepModel StepSpec.

(** ** enumerating a finite ordered set by its successor function *)

Section Succ.
  Variable A : Type.
  Variable A_dec : forall x y : A, {x = y} + {x <> y}.
  Variable lt : A -> A -> Prop.
  Hypothesis lt_trans : forall a b c, lt a b -> lt b c -> lt a c.
  Hypothesis lt_irrefl : forall a, ~ lt a a.
  Variable lt_dec : forall a b, {lt a b} + {~ lt a b}.
  Variable U : A -> Prop.
  Variable all : list A.
  Hypothesis U_all : forall a, U a -> In a all.
  Variable next : A -> option A.
  Hypothesis next_some : forall a b, U a -> next a = Some b ->
    U b /\ lt a b /\ forall c, U c -> lt a c -> b = c \/ lt b c.
  Hypothesis next_none : forall a, U a -> next a = None -> forall c, U c -> ~ lt a c.

  Inductive walk : A -> list A -> Prop :=
  | walk_last a : next a = None -> walk a [a]
  | walk_next a b l : next a = Some b -> walk b l -> walk a (a :: l).

  Definition above (a : A) : nat := length (filter (fun b => if lt_dec a b then true else false) all).

  Lemma filter_le (P Q : A -> bool) l : (forall x, P x = true -> Q x = true) ->
    length (filter P l) <= length (filter Q l).
  Proof.
    intro H. induction l as [|x l IH]; simpl; [lia|].
    destruct (P x) eqn:E; [rewrite (H x E); simpl; lia|]. destruct (Q x); simpl; lia.
  Qed.
  Lemma filter_lt (P Q : A -> bool) l x : (forall x, P x = true -> Q x = true) ->
    In x l -> P x = false -> Q x = true -> length (filter P l) < length (filter Q l).
  Proof.
    intros H I1 Px Qx. induction l as [|y l IH]; [destruct I1|]. simpl. destruct I1 as [->|I1].
    - rewrite Px, Qx. simpl. pose proof (filter_le P Q l H). lia.
    - specialize (IH I1). destruct (P y) eqn:E; [rewrite (H y E); simpl; lia|]. destruct (Q y); simpl; lia.
  Qed.

  Lemma above_lt a b : U b -> lt a b -> above b < above a.
  Proof.
    intros Ub L. unfold above. apply (filter_lt _ _ all b).
    - intros x. destruct (lt_dec b x); [|discriminate]. destruct (lt_dec a x); [reflexivity|]. exfalso; eauto.
    - auto.
    - destruct (lt_dec b b) as [K|]; [destruct (lt_irrefl _ K)|reflexivity].
    - destruct (lt_dec a b); [reflexivity|contradiction].
  Qed.

  Lemma walk_spec : forall a, U a -> exists l, walk a l /\ StronglySorted lt l /\
    forall c, In c l <-> U c /\ (a = c \/ lt a c).
  Proof.
    intro a. remember (above a) as n eqn:E. revert a E.
    induction n as [n IH] using lt_wf_ind. intros a E Ua. destruct (next a) as [b|] eqn:N.
    - destruct (next_some a b Ua N) as (Ub & L & S).
      assert (K : above b < n) by (subst; apply above_lt; assumption).
      destruct (IH _ K b eq_refl Ub) as (l & W & SS & M). exists (a :: l). split; [econstructor; eauto|]. split.
      + constructor; [exact SS|]. apply Forall_forall. intros c I1. apply M in I1. destruct I1 as [_ [<-|K1]]; eauto.
      + intro c. simpl. rewrite M. split.
        * intros [<-|[Uc [<-|K1]]]; [auto| |]; split; eauto.
        * intros [Uc [->|K1]]; [auto|]. right. split; [exact Uc|]. apply S; assumption.
    - exists [a]. split; [constructor; exact N|]. split; [repeat constructor|].
      intro c. simpl. split.
      + intros [<-|[]]. auto.
      + intros [Uc [->|K1]]; [auto|]. destruct (next_none a Ua N c Uc K1).
  Qed.

  Lemma walk_det a l l' : walk a l -> walk a l' -> l = l'.
  Proof.
    intro H. revert l'. induction H as [a N|a b l N W IH]; intros l' H'; inversion H' as [? N'|? b' l1 N' W']; subst; try congruence.
    rewrite N in N'. injection N' as <-. f_equal. apply IH. exact W'.
  Qed.
End Succ.

Arguments walk {A}.

Lemma sorted_nodup {A} (lt : A -> A -> Prop) l : (forall a, ~ lt a a) -> StronglySorted lt l -> NoDup l.
Proof.
  intros Irr S. induction S as [|a l S IH F]; constructor; [|exact IH].
  intro I1. rewrite Forall_forall in F. exact (Irr a (F a I1)).
Qed.

(** ** lists *)

Lemma set_nth_app {A} (s1 : list A) y x s2 : set_nth (length s1) x (s1 ++ y :: s2) = s1 ++ x :: s2.
Proof. induction s1; simpl; [reflexivity|f_equal; assumption]. Qed.

Lemma set_nth_length {A} i (x : A) l : length (set_nth i x l) = length l.
Proof. revert i. induction l; intros [|i]; simpl; auto. Qed.

Lemma nth_split_at {A} k (l : list A) d : k < length l -> exists s1 s2, l = s1 ++ nth k l d :: s2 /\ length s1 = k.
Proof. apply nth_split. Qed.

(** all lists of a given length over given elements *)
Fixpoint words (es : list nat) (n : nat) : list (list nat) :=
  match n with
  | 0 => [[]]
  | S n => flat_map (fun x => map (cons x) (words es n)) es
  end.
Lemma words_spec es n a : length a = n -> incl a es -> In a (words es n).
Proof.
  intros <-. induction a as [|x a IH]; intro I1; simpl; [auto|].
  apply in_flat_map. exists x. split; [apply I1; left; reflexivity|].
  apply in_map. apply IH. intros y Hy. apply I1. right. exact Hy.
Qed.

Ltac lexc := first [apply lex_head; (assumption || lia) | apply lex_tail; assumption].

(** ** the lexicographic order *)

Lemma lex_irrefl a : ~ lex a a.
Proof. induction a; intro H; inversion H; subst; [lia|auto]. Qed.
Lemma lex_trans a b c : lex a b -> lex b c -> lex a c.
Proof.
  intro H. revert c. induction H as [x y a b L|x a b H IH]; intros c K; inversion K as [? z ? c' K1|? ? c' K1]; subst.
  - apply lex_head. lia.
  - apply lex_head. exact L.
  - apply lex_head. exact K1.
  - apply lex_tail. apply IH. exact K1.
Qed.
Lemma lex_dec : forall a b, {lex a b} + {~ lex a b}.
Proof.
  induction a as [|x a IH]; intros [|y b]; try (right; intro H; inversion H; fail).
  destruct (lt_dec x y) as [L|N]; [left; lexc|].
  destruct (Nat.eq_dec x y) as [->|N']; [|right; intro H; inversion H; subst; lia].
  destruct (IH b) as [L|K]; [left; lexc|].
  right. intro H. inversion H; subst; [lia|contradiction].
Qed.
Lemma lex_total a b : length a = length b -> a = b \/ lex a b \/ lex b a.
Proof.
  revert b. induction a as [|x a IH]; intros [|y b] E; try discriminate; [auto|].
  destruct (Nat.lt_trichotomy x y) as [L|[->|L]].
  - right. left. lexc.
  - injection E as E. destruct (IH b E) as [->|[H|H]]; [auto| |]; right; [left|right]; lexc.
  - right. right; lexc.
Qed.

(** ** [next_permutation] *)

Definition descending (a : list nat) : Prop := StronglySorted ge a.

Lemma desc_max t c : descending t -> Permutation t c -> ~ lex t c.
Proof.
  intro D. revert c. induction D as [|h t D IH F]; intros c P L; inversion L as [? z ? c' K|? ? c' K]; subst.
  - assert (I1 : In z (h :: t)) by (eapply Permutation_in; [symmetry; exact P|left; reflexivity]).
    destruct I1 as [->|I1]; [lia|]. rewrite Forall_forall in F. specialize (F z I1). lia.
  - apply Permutation_cons_inv in P. exact (IH c' P K).
Qed.

Lemma asc_min s c : ascending s -> Permutation s c -> s = c \/ lex s c.
Proof.
  intro D. revert c. induction D as [|h t D IH F]; intros c P.
  - apply Permutation_nil in P. auto.
  - destruct c as [|z c]; [apply Permutation_sym, Permutation_nil in P; discriminate|].
    assert (I1 : In z (h :: t)) by (eapply Permutation_in; [symmetry; exact P|left; reflexivity]).
    rewrite Forall_forall in F.
    destruct (Nat.eq_dec h z) as [->|N].
    + apply Permutation_cons_inv in P. destruct (IH c P) as [->|L]; [auto|]. right; lexc.
    + right. apply lex_head. destruct I1 as [->|I1]; [contradiction|]. specialize (F z I1). lia.
Qed.

Lemma desc_rev s : descending s -> ascending (rev s).
Proof.
  induction s as [|x s IH]; intro D; [constructor|]. inversion D as [|? ? D' F]; subst. simpl.
  specialize (IH D'). clear D D'.
  assert (G : forall l, ascending l -> Forall (fun y => y <= x) l -> ascending (l ++ [x])).
  { intros l A H. induction A as [|h l A IHl F2]; simpl; [repeat constructor|].
    inversion H; subst. constructor; [apply IHl; assumption|]. apply Forall_app. split; [exact F2|]. repeat constructor; assumption. }
  apply G; [exact IH|]. apply Forall_rev. eapply Forall_impl; [|exact F]. simpl. intros. lia.
Qed.

Lemma desc_app s1 y s2 : descending (s1 ++ y :: s2) ->
  descending s1 /\ (forall z, In z s1 -> y <= z) /\ (forall z, In z s2 -> z <= y) /\ descending s2.
Proof.
  induction s1 as [|h s1 IH]; simpl; intro D; inversion D as [|? ? D' F]; subst.
  - split; [constructor|]. split; [intros z []|]. rewrite Forall_forall in F. split; [intros z Hz; specialize (F z Hz); lia|exact D'].
  - destruct (IH D') as (A & B & C & E). split.
    { constructor; [exact A|]. apply Forall_app in F. tauto. }
    split; [|auto]. intros z [<-|Hz]; [|auto]. apply Forall_app in F. destruct F as [_ F]. inversion F; subst. lia.
Qed.

Lemma desc_app_intro s1 x s2 : descending s1 -> (forall z, In z s1 -> x <= z) -> (forall z, In z s2 -> z <= x) -> descending s2 ->
  descending (s1 ++ x :: s2).
Proof.
  intros A B C E. induction s1 as [|h s1 IH]; simpl.
  - constructor; [exact E|]. apply Forall_forall. intros z Hz. specialize (C z Hz). lia.
  - inversion A as [|? ? A' F]; subst. constructor.
    + apply IH; [exact A'|]. intros z Hz. apply B. right. exact Hz.
    + apply Forall_app. split; [exact F|]. pose proof (B h (or_introl eq_refl)). constructor; [lia|].
      apply Forall_forall. intros z Hz. specialize (C z Hz). lia.
Qed.

Lemma find_ascent_cons x t i : find_ascent (x :: t) (S i) =
  match find_ascent t i with
  | Some k => Some (S k)
  | None => if x <? nth 0 t 0 then Some 0 else None
  end.
Proof.
  induction i as [|i IH].
  - simpl. destruct (nth 0 t 0 <? nth 1 t 0); reflexivity.
  - change (find_ascent (x :: t) (S (S i))) with
      (if nth (S i) t 0 <? nth (S (S i)) t 0 then Some (S (S i)) else find_ascent (x :: t) (S i)).
    change (find_ascent t (S i)) with
      (if nth (S i) t 0 <? nth (S (S i)) t 0 then Some (S i) else find_ascent t i).
    destruct (nth (S i) t 0 <? nth (S (S i)) t 0); [reflexivity|exact IH].
Qed.

Lemma find_above_spec a x j :
  match find_above a x j with
  | Some k => k <= j /\ x < nth k a 0 /\ forall m, k < m <= j -> nth m a 0 <= x
  | None => forall m, m <= j -> nth m a 0 <= x
  end.
Proof.
  induction j as [|j IH]; cbn [find_above].
  - destruct (Nat.leb_spec (nth 0 a 0) x) as [L|L].
    + intros m Hm. replace m with 0 by lia. exact L.
    + split; [lia|]. split; [exact L|]. intros; lia.
  - destruct (Nat.leb_spec (nth (S j) a 0) x) as [L|L].
    + destruct (find_above a x j) as [k|].
      * destruct IH as (A & B & C). split; [lia|]. split; [exact B|]. intros m Hm.
        destruct (Nat.eq_dec m (S j)) as [->|N]; [exact L|apply C; lia].
      * intros m Hm. destruct (Nat.eq_dec m (S j)) as [->|N]; [exact L|apply IH; lia].
    + split; [lia|]. split; [exact L|]. intros; lia.
Qed.

Lemma find_above_cons x t v j : find_above (x :: t) v (S j) =
  match find_above t v j with
  | Some k => Some (S k)
  | None => if x <=? v then None else Some 0
  end.
Proof.
  induction j as [|j IH].
  - simpl. destruct (nth 0 t 0 <=? v); [|reflexivity]. destruct (x <=? v); reflexivity.
  - change (find_above (x :: t) v (S (S j))) with
      (if nth (S j) t 0 <=? v then find_above (x :: t) v (S j) else Some (S (S j))).
    change (find_above t v (S j)) with (if nth (S j) t 0 <=? v then find_above t v j else Some (S j)).
    destruct (nth (S j) t 0 <=? v); [exact IH|reflexivity].
Qed.

Lemma next_permutation_cons_next x t t' : next_permutation t = Next t' -> next_permutation (x :: t) = Next (x :: t').
Proof.
  unfold next_permutation. destruct (Nat.ltb_spec (length t) 2) as [L|L]; [discriminate|].
  cbn [length]. destruct (Nat.ltb_spec (S (length t)) 2) as [L'|L']; [lia|].
  replace (S (length t) - 2) with (S (length t - 2)) by lia. rewrite find_ascent_cons.
  destruct (find_ascent t (length t - 2)) as [i|]; [|discriminate].
  replace (S (length t) - 1) with (S (length t - 1)) by lia. cbn [nth]. rewrite find_above_cons.
  destruct (find_above t (nth i t 0) (length t - 1)) as [j|]; [|discriminate].
  intro E. injection E as <-. reflexivity.
Qed.

Lemma ascent_last x t : t <> [] -> next_permutation t = Last ->
  find_ascent (x :: t) (length (x :: t) - 2) = if x <? nth 0 t 0 then Some 0 else None.
Proof.
  intros NE. unfold next_permutation. cbn [length]. destruct (Nat.ltb_spec (length t) 2) as [L|L].
  - intros _. destruct t as [|y [|z t]]; [contradiction| |simpl in L; lia]. reflexivity.
  - replace (S (length t) - 2) with (S (length t - 2)) by lia. rewrite find_ascent_cons.
    destruct (find_ascent t (length t - 2)) as [i|]; [|reflexivity].
    destruct (find_above t (nth i t 0) (length t - 1)); discriminate.
Qed.

Lemma bump x t : descending t -> x < nth 0 t 0 -> exists s1 y s2, t = s1 ++ y :: s2 /\ x < y /\ (forall z, In z s2 -> z <= x) /\
  find_above (x :: t) x (length t) = Some (S (length s1)).
Proof.
  intros D L. destruct t as [|h t]; [simpl in L; lia|].
  set (u := h :: t) in *. change (length u) with (S (length t)). rewrite find_above_cons.
  pose proof (find_above_spec u x (length t)) as F. destruct (find_above u x (length t)) as [k|].
  - destruct F as (A & B & C). destruct (nth_split_at k u 0) as (s1 & s2 & E & Ek); [simpl; lia|].
    exists s1, (nth k u 0), s2. split; [exact E|]. split; [exact B|]. split; [|rewrite Ek; reflexivity].
    intros z Hz. destruct (In_nth s2 z 0 Hz) as (m & Hm & Em).
    assert (G : nth (k + S m) u 0 <= x).
    { apply C. assert (length u = length s1 + S (length s2)) by (rewrite E at 1; rewrite app_length; reflexivity).
      simpl in H. lia. }
    rewrite E in G. rewrite app_nth2 in G by lia. replace (k + S m - length s1) with (S m) in G by lia.
    simpl in G. rewrite Em in G. exact G.
  - specialize (F 0 (Nat.le_0_l _)). lia.
Qed.

Lemma swap_bump x s1 y s2 : swap (x :: s1 ++ y :: s2) 0 (S (length s1)) = y :: s1 ++ x :: s2.
Proof.
  unfold swap. cbn [nth set_nth]. rewrite app_nth2 by lia. replace (length s1 - length s1) with 0 by lia.
  cbn [nth]. rewrite set_nth_app. reflexivity.
Qed.

Lemma next_permutation_spec a :
  match next_permutation a with
  | Last => descending a
  | Next b => Permutation a b /\ lex a b /\ forall c, Permutation a c -> lex a c -> b = c \/ lex b c
  | Panic => False
  end.
Proof.
  induction a as [|x t IH]; [constructor|].
  destruct t as [|h t]; [repeat constructor|]. set (u := h :: t) in *.
  destruct (next_permutation u) as [|u'|] eqn:E; [|rewrite (next_permutation_cons_next x u u' E)|contradiction].
  - assert (NE : u <> []) by discriminate. pose proof (ascent_last x u NE E) as FA.
    unfold next_permutation. rewrite FA. change (length (x :: u) <? 2) with false. cbv iota.
    change (nth 0 u 0) with h. destruct (Nat.ltb_spec x h) as [L|L].
    + destruct (bump x u IH L) as (s1 & y & s2 & Eu & Ly & Hs & FB).
      change (length (x :: u) - 1) with (length u). change (nth 0 (x :: u) 0) with x. rewrite FB. clear FA FB E NE L.
      rewrite Eu in *. clear Eu. rewrite swap_bump. unfold reverse_from. cbn [Nat.add firstn skipn app].
      destruct (desc_app s1 y s2 IH) as (D1 & D2 & D3 & D4).
      assert (DS : descending (s1 ++ x :: s2)).
      { apply desc_app_intro; auto. intros z Hz. specialize (D2 z Hz). lia. }
      assert (P0 : Permutation (x :: s1 ++ y :: s2) (y :: rev (s1 ++ x :: s2))).
      { etransitivity; [|apply perm_skip, Permutation_rev].
        etransitivity; [apply perm_skip, Permutation_sym, Permutation_middle|].
        etransitivity; [apply perm_swap|]. apply perm_skip. apply Permutation_middle. }
      split; [exact P0|]. split; [lexc|].
      intros c P Lc. inversion Lc as [? z ? c' K|? ? c' K]; subst.
      * assert (Iz : In z (x :: s1 ++ y :: s2)) by (eapply Permutation_in; [symmetry; exact P|left; reflexivity]).
        assert (Gz : y <= z).
        { destruct Iz as [->|Iz]; [lia|]. apply in_app_iff in Iz. destruct Iz as [Iz|[->|Iz]]; [auto|lia|].
          specialize (Hs z Iz). lia. }
        destruct (Nat.eq_dec y z) as [<-|N]; [|right; lexc].
        assert (P1 : Permutation (rev (s1 ++ x :: s2)) c').
        { eapply Permutation_cons_inv. etransitivity; [symmetry; exact P0|exact P]. }
        destruct (asc_min _ c' (desc_rev _ DS) P1) as [->|K']; [auto|]. right; lexc.
      * apply Permutation_cons_inv in P. destruct (desc_max _ c' IH P K).
    + constructor; [exact IH|]. inversion IH; subst. constructor; [lia|].
      eapply Forall_impl; [|eassumption]. simpl. intros. lia.
  - destruct IH as (P & Lx & S). split; [apply perm_skip; exact P|]. split; [lexc|].
    intros c Pc Lc. inversion Lc as [? z ? c' K|? ? c' K]; subst; [right; lexc|].
    apply Permutation_cons_inv in Pc. destruct (S c' Pc K) as [->|K']; [auto|]. right; lexc.
Qed.

Definition next_perm_option (a : list nat) : option (list nat) :=
  match next_permutation a with Next b => Some b | _ => None end.

Lemma visits_walk a l : (forall b, next_permutation b <> Panic) -> (visits a l <-> walk next_perm_option a l).
Proof.
  intro NP. split; intro H; induction H as [a N|a b l N W IH].
  - constructor. unfold next_perm_option. rewrite N. reflexivity.
  - econstructor; [|exact IH]. unfold next_perm_option. rewrite N. reflexivity.
  - constructor. unfold next_perm_option in N. destruct (next_permutation a) eqn:E; [reflexivity|discriminate|].
    destruct (NP a E).
  - econstructor; [|exact IH]. unfold next_perm_option in N. destruct (next_permutation a) eqn:E; congruence.
Qed.

Lemma next_permutation_no_panic a : next_permutation a <> Panic.
Proof. intro E. pose proof (next_permutation_spec a) as S. rewrite E in S. exact S. Qed.

(** from any arrangement: all later ones *)
Lemma visits_from a : exists l, visits a l /\ StronglySorted lex l /\
  forall c, In c l <-> Permutation a c /\ (a = c \/ lex a c).
Proof.
  destruct (walk_spec (list nat) lex lex_trans lex_irrefl lex_dec (fun c => Permutation a c)
              (words a (length a))) with (next := next_perm_option) (a := a) as (l & W & S & M).
  - intros c P. apply words_spec; [symmetry; apply Permutation_length; exact P|].
    intros x Hx. eapply Permutation_in; [symmetry; exact P|exact Hx].
  - intros b c P N. unfold next_perm_option in N. pose proof (next_permutation_spec b) as S.
    destruct (next_permutation b) as [|b'|]; try discriminate. injection N as <-. destruct S as (P' & L & S).
    split; [etransitivity; eassumption|]. split; [exact L|].
    intros d Pd Ld. apply S; [|exact Ld]. etransitivity; [symmetry; exact P|exact Pd].
  - intros b P N c Pc. unfold next_perm_option in N. pose proof (next_permutation_spec b) as S.
    destruct (next_permutation b) as [|b'|]; try discriminate; [|contradiction].
    apply desc_max; [exact S|]. etransitivity; [symmetry; exact P|exact Pc].
  - apply Permutation_refl.
  - exists l. split; [apply visits_walk; [exact next_permutation_no_panic|exact W]|]. auto.
Qed.

Lemma visits_det a l l' : visits a l -> visits a l' -> l = l'.
Proof.
  intros H H'. apply visits_walk in H; [|exact next_permutation_no_panic].
  apply visits_walk in H'; [|exact next_permutation_no_panic]. exact (walk_det _ _ a l l' H H').
Qed.

Lemma visits_all a l : ascending a -> visits a l ->
  StronglySorted lex l /\ NoDup l /\ forall c, In c l <-> Permutation a c.
Proof.
  intros A V. destruct (visits_from a) as (l' & V' & S & M). rewrite (visits_det a l l' V V').
  split; [exact S|]. split; [exact (sorted_nodup lex l' lex_irrefl S)|].
  intro c. rewrite M. split; [tauto|]. intro P. split; [exact P|]. exact (asc_min a c A P).
Qed.

(** ** compositions *)

Lemma comp_from_cons x t n : comp_from (x :: t) (S n) =
  match comp_from t n with
  | Some t' => Some (x :: t')
  | None => if 0 <? x then Some (set_nth 1 (list_sum t + 1) ((x - 1) :: repeat 0 (length t))) else None
  end.
Proof.
  induction n as [|i IH].
  - cbn [comp_from nth Nat.add skipn set_nth firstn app length]. replace (S (length t) - 1) with (length t) by lia. reflexivity.
  - cbn [comp_from]. cbn [comp_from] in IH. cbn [nth]. destruct (0 <? nth i t 0) eqn:E.
    + reflexivity.
    + exact IH.
Qed.

Lemma next_comp_cons x t : t <> [] -> next_composition (x :: t) =
  match next_composition t with
  | Some t' => Some (x :: t')
  | None => if 0 <? x then Some ((x - 1) :: first_composition (list_sum t + 1) (length t)) else None
  end.
Proof.
  intro NE. unfold next_composition. cbn [length].
  destruct t as [|h t]; [contradiction|]. replace (S (length (h :: t)) - 1) with (S (length (h :: t) - 1)) by (simpl; lia).
  rewrite comp_from_cons. reflexivity.
Qed.

Lemma first_composition_sum s e : 0 < e -> length (first_composition s e) = e /\ list_sum (first_composition s e) = s.
Proof.
  intro P. destruct e as [|e]; [lia|]. unfold first_composition. cbn [repeat set_nth length]. rewrite repeat_length.
  split; [reflexivity|]. change (s + list_sum (repeat 0 e) = s).
  assert (list_sum (repeat 0 e) = 0) by (clear; induction e; [reflexivity|exact IHe]). lia.
Qed.

(** the first composition is the greatest *)
Lemma first_composition_max c : c <> [] -> first_composition (list_sum c) (length c) = c \/ lex c (first_composition (list_sum c) (length c)).
Proof.
  destruct c as [|x c]; [contradiction|]. intros _. unfold first_composition. cbn [length repeat set_nth].
  change (list_sum (x :: c)) with (x + list_sum c).
  destruct (Nat.eq_dec (list_sum c) 0) as [E|N].
  - left. rewrite E, Nat.add_0_r. f_equal. clear x. induction c as [|y c IH]; [reflexivity|].
    change (list_sum (y :: c)) with (y + list_sum c) in E. simpl. f_equal; [lia|apply IH; lia].
  - right; lexc.
Qed.

Lemma next_composition_spec c : c <> [] ->
  match next_composition c with
  | Some d => length d = length c /\ list_sum d = list_sum c /\ lex d c /\
              forall x, length x = length c -> list_sum x = list_sum c -> lex x c -> d = x \/ lex x d
  | None => forall x, length x = length c -> list_sum x = list_sum c -> ~ lex x c
  end.
Proof.
  induction c as [|x t IH]; [contradiction|]. intros _. destruct t as [|h t].
  - simpl. intros [|y [|z l]] E S L; try discriminate. simpl in S. inversion L as [? ? ? ? K|? ? ? K]; subst; [lia|inversion K].
  - set (u := h :: t) in *. assert (NE : u <> []) by discriminate. rewrite next_comp_cons by exact NE. specialize (IH NE).
    destruct (next_composition u) as [u'|].
    + destruct IH as (E & S & L & M). split; [cbn [length]; f_equal; exact E|].
      split; [change (x + list_sum u' = x + list_sum u); lia|]. split; [lexc|].
      intros y Ey Sy Ly. inversion Ly as [z ? y' ? K|? y' ? K]; subst; [right; lexc|].
      injection Ey as Ey. change (x + list_sum y' = x + list_sum u) in Sy.
      destruct (M y') as [->|K']; [exact Ey|lia|exact K|auto|right; lexc].
    + destruct (Nat.ltb_spec 0 x) as [P|P].
      * destruct (first_composition_sum (list_sum u + 1) (length u)) as [E1 S1]; [simpl; lia|].
        split; [exact (f_equal S E1)|].
        split; [change (x - 1 + list_sum (first_composition (list_sum u + 1) (length u)) = x + list_sum u); lia|].
        split; [lexc|].
        intros y Ey Sy Ly. inversion Ly as [z ? y' ? K|? y' ? K]; subst.
        -- injection Ey as Ey. change (z + list_sum y' = x + list_sum u) in Sy.
           destruct (Nat.eq_dec z (x - 1)) as [->|N]; [|right; lexc].
           assert (Sy' : list_sum y' = list_sum u + 1) by lia. rewrite <- Sy'. replace (length u) with (length y') by exact Ey.
           destruct (first_composition_max y') as [K'|K'].
           ++ intros ->. discriminate.
           ++ left. f_equal. exact K'.
           ++ right; lexc.
        -- injection Ey as Ey. change (x + list_sum y' = x + list_sum u) in Sy.
           destruct (IH y' Ey); [lia|exact K].
      * intros y Ey Sy Ly. inversion Ly as [z ? y' ? K|? y' ? K]; subst; [lia|].
        injection Ey as Ey. change (x + list_sum y' = x + list_sum u) in Sy. exact (IH y' Ey ltac:(lia) K).
Qed.

Lemma comp_visits_walk c l : comp_visits c l <-> walk next_composition c l.
Proof.
  split; intro H; induction H as [a N|a b l N W IH]; try (constructor; exact N); econstructor; eassumption.
Qed.

Lemma in_le_sum c x : In x c -> x <= list_sum c.
Proof.
  induction c as [|y c IH]; [intros []|]. change (list_sum (y :: c)) with (y + list_sum c). intros [->|H]; [lia|specialize (IH H); lia].
Qed.

Lemma comp_visits_from c : c <> [] -> exists l, comp_visits c l /\ StronglySorted (fun a b => lex b a) l /\
  forall d, In d l <-> (length d = length c /\ list_sum d = list_sum c) /\ (c = d \/ lex d c).
Proof.
  intro NE.
  destruct (walk_spec (list nat) (fun a b => lex b a)) with
     (U := fun d => length d = length c /\ list_sum d = list_sum c)
     (all := words (seq 0 (S (list_sum c))) (length c)) (next := next_composition) (a := c) as (l & W & S & M).
  - intros a b d H K. eapply lex_trans; eassumption.
  - exact lex_irrefl.
  - intros a b. apply lex_dec.
  - intros d [E S]. apply words_spec; [exact E|]. intros x Hx. apply in_seq. apply in_le_sum in Hx. lia.
  - intros a b [E S] N. assert (NA : a <> []) by (intros ->; destruct c; [contradiction|discriminate]).
    pose proof (next_composition_spec a NA) as X. rewrite N in X. destruct X as (E' & S' & L & X).
    split; [split; congruence|]. split; [exact L|]. intros d [Ed Sd] Ld. apply X; congruence.
  - intros a [E S] N d [Ed Sd]. assert (NA : a <> []) by (intros ->; destruct c; [contradiction|discriminate]).
    pose proof (next_composition_spec a NA) as X. rewrite N in X. apply X; congruence.
  - split; reflexivity.
  - exists l. split; [apply comp_visits_walk; exact W|]. auto.
Qed.

Lemma comp_visits_det c l l' : comp_visits c l -> comp_visits c l' -> l = l'.
Proof. rewrite !comp_visits_walk. apply walk_det. Qed.

Lemma comp_visits_all n e l : 0 < e -> comp_visits (first_composition n e) l ->
  StronglySorted (fun a b => lex b a) l /\ NoDup l /\ forall c, In c l <-> length c = e /\ list_sum c = n.
Proof.
  intros P V. destruct (first_composition_sum n e P) as [E S0].
  assert (NE : first_composition n e <> []) by (intro K; rewrite K in E; simpl in E; lia).
  destruct (comp_visits_from _ NE) as (l' & V' & S & M). rewrite (comp_visits_det _ l l' V V').
  split; [exact S|]. split; [exact (sorted_nodup _ l' lex_irrefl S)|].
  intro c. rewrite M, E, S0. split; [tauto|]. intros [Ec Sc]. split; [auto|].
  subst. apply first_composition_max. intros ->. simpl in P. lia.
Qed.

(** ** k-partitions *)

Fixpoint val (k : nat) (a : list nat) : nat :=
  match a with [] => 0 | d :: a => d + k * val k a end.

Lemma incr_false k a : incr k false a = (false, a).
Proof. induction a; simpl; [reflexivity|]. rewrite IHa. reflexivity. Qed.

Lemma incr_spec k a : 0 < k -> (forall j, In j a -> j < k) ->
  let (c, b) := incr k true a in
  length b = length a /\ (forall j, In j b -> j < k) /\
  (if c then val k a + 1 = k ^ length a else val k b = val k a + 1).
Proof.
  intro P. induction a as [|d a IH]; intro H.
  - simpl. auto.
  - cbn [incr]. assert (Hd : d < k) by (apply H; left; reflexivity).
    destruct (Nat.ltb_spec (d + 1) k) as [L|L].
    + rewrite incr_false. split; [reflexivity|]. split; [|cbn [val]; lia].
      intros j [<-|Hj]; [exact L|apply H; right; exact Hj].
    + specialize (IH (fun j Hj => H j (or_intror Hj))). destruct (incr k true a) as [c b].
      destruct IH as (E & Hb & V). split; [cbn [length]; lia|]. split; [intros j [<-|Hj]; [exact P|auto]|].
      destruct c; cbn [val length Nat.pow]; nia.
Qed.

Lemma val_inj k a b : length a = length b -> (forall j, In j a -> j < k) -> (forall j, In j b -> j < k) ->
  val k a = val k b -> a = b.
Proof.
  revert b. induction a as [|x a IH]; intros [|y b] E Ha Hb V; try discriminate; [reflexivity|].
  cbn [val] in V. injection E as E.
  pose proof (Ha x (or_introl eq_refl)). pose proof (Hb y (or_introl eq_refl)).
  assert (val k a = val k b) by nia. assert (x = y) by lia. subst. f_equal.
  apply IH; auto; intros j Hj; [apply Ha|apply Hb]; right; exact Hj.
Qed.

Lemma val_bound k a : (forall j, In j a -> j < k) -> val k a < k ^ length a.
Proof.
  induction a as [|x a IH]; intro H; simpl; [lia|].
  pose proof (H x (or_introl eq_refl)). specialize (IH (fun j Hj => H j (or_intror Hj))). nia.
Qed.

Lemma val_zero k n : val k (repeat 0 n) = 0.
Proof. induction n; simpl; lia. Qed.

Lemma sends_zero n k : 0 < k \/ n = 0 -> sends n k (repeat 0 n).
Proof.
  intros H. split; [apply repeat_length|]. intros j Hj. destruct H as [H| ->]; [|destruct Hj].
  apply repeat_spec in Hj. subst. exact H.
Qed.

Lemma kp_walk n k : 0 < k \/ n = 0 -> exists l, walk (kp_advance k) (repeat 0 n) l /\ NoDup l /\
  forall a, In a l <-> sends n k a.
Proof.
  intros H. destruct (Nat.eq_dec k 0) as [->|K0].
  { assert (n = 0) by lia. subst. exists [[]]. split; [constructor; reflexivity|]. split; [repeat constructor; intros []|].
    intro a. split.
    - intros [<-|[]]. split; [reflexivity|intros j []].
    - intros [E _]. destruct a; [left; reflexivity|discriminate]. }
  assert (P : 0 < k) by lia.
  destruct (walk_spec (list nat) (fun a b => val k a < val k b)) with
     (U := sends n k) (all := words (seq 0 k) n) (next := kp_advance k) (a := repeat 0 n) as (l & W & S & M).
  - intros; lia.
  - intros; lia.
  - intros a b. apply lt_dec.
  - intros a [E Ha]. apply words_spec; [exact E|]. intros j Hj. apply in_seq. specialize (Ha j Hj). lia.
  - intros a b [E Ha] N. unfold kp_advance in N. pose proof (incr_spec k a P Ha) as X.
    destruct (incr k true a) as [c b']. destruct X as (E' & Hb & V). destruct c; [discriminate|]. injection N as <-.
    split; [split; [congruence|exact Hb]|]. split; [lia|].
    intros d [Ed Hd] L. destruct (Nat.eq_dec (val k b') (val k d)) as [Q|Q]; [|right; lia].
    left. apply (val_inj k); auto. congruence.
  - intros a [E Ha] N d [Ed Hd]. unfold kp_advance in N. pose proof (incr_spec k a P Ha) as X.
    destruct (incr k true a) as [c b']. destruct X as (E' & Hb & V). destruct c; [|discriminate].
    pose proof (val_bound k d Hd). rewrite Ed, <- E in H0. lia.
  - apply sends_zero. exact H.
  - exists l. split; [exact W|]. split; [apply (sorted_nodup _ l) in S; [exact S|intros; lia]|].
    intro a. rewrite M. split; [tauto|]. intro Sa. split; [exact Sa|]. destruct (Nat.eq_dec (val k a) 0) as [Z|Z].
    + left. destruct (sends_zero n k H) as [E1 H1]. destruct Sa as [E2 H2]. apply (val_inj k); auto; [congruence|].
      rewrite val_zero. lia.
    + right. rewrite val_zero. lia.
Qed.

Section KP.
  Variable T : Type.
  Variable preds : list (list T -> bool).
  Variable items : list T.
  Let k := length preds.

  Lemma kp_next_mono f cur r : kp_next f preds items cur = Some r -> kp_next (S f) preds items cur = Some r.
  Proof.
    revert cur. induction f as [|f IH]; intros cur; [discriminate|].
    destruct cur as [a|]; [|auto]. intro H. cbn [kp_next] in H |- *. cbn [kp_next] in IH.
    destruct (kp_valid preds (build_partition items (length preds) a)); [exact H|]. apply IH. exact H.
  Qed.

  Lemma kp_collect_mono f cur r : kp_collect f preds items cur = Some r -> kp_collect (S f) preds items cur = Some r.
  Proof.
    revert cur r. induction f as [|f IH]; intros cur r; [discriminate|]. intro H.
    change (kp_collect (S (S f)) preds items cur) with
      (match kp_next (S (S f)) preds items cur with
       | None => None
       | Some (None, _) => Some []
       | Some (Some ps, current) => match kp_collect (S f) preds items current with Some rest => Some (ps :: rest) | None => None end
       end).
    change (kp_collect (S f) preds items cur) with
      (match kp_next (S f) preds items cur with
       | None => None
       | Some (None, _) => Some []
       | Some (Some ps, current) => match kp_collect f preds items current with Some rest => Some (ps :: rest) | None => None end
       end) in H.
    destruct (kp_next (S f) preds items cur) as [[[ps|] cur']|] eqn:E; [| |discriminate].
    - rewrite (kp_next_mono _ _ _ E). destruct (kp_collect f preds items cur') as [rest|] eqn:C; [|discriminate].
      rewrite (IH _ _ C). exact H.
    - rewrite (kp_next_mono _ _ _ E). exact H.
  Qed.

  Lemma kp_collect_le f g cur r : f <= g -> kp_collect f preds items cur = Some r -> kp_collect g preds items cur = Some r.
  Proof. induction 1 as [|g _ IH]; [auto|]. intro H. apply kp_collect_mono, IH, H. Qed.

  Definition produced (l : list (list nat)) : list (list (list T)) :=
    filter (kp_valid preds) (map (build_partition items k) l).

  Lemma kp_collect_walk a l : walk (kp_advance k) a l ->
    kp_collect (S (length l)) preds items (Some a) = Some (produced l).
  Proof.
    intro W. induction W as [a N|a b l N W IH]; unfold produced; cbn [map filter length].
    - cbn [kp_collect kp_next]. fold k. rewrite N. destruct (kp_valid preds (build_partition items k a)) eqn:E; reflexivity.
    - change (kp_collect (S (S (length l))) preds items (Some a)) with
        (match kp_next (S (S (length l))) preds items (Some a) with
         | None => None
         | Some (None, _) => Some []
         | Some (Some ps, current) => match kp_collect (S (length l)) preds items current with Some rest => Some (ps :: rest) | None => None end
         end).
      change (kp_next (S (S (length l))) preds items (Some a)) with
        (if kp_valid preds (build_partition items k a) then Some (Some (build_partition items k a), kp_advance k a)
         else kp_next (S (length l)) preds items (kp_advance k a)).
      rewrite N. destruct (kp_valid preds (build_partition items k a)) eqn:E.
      + rewrite IH. reflexivity.
      + change (kp_collect (S (length l)) preds items (Some b)) with
          (match kp_next (S (length l)) preds items (Some b) with
           | None => None
           | Some (None, _) => Some []
           | Some (Some ps, current) => match kp_collect (length l) preds items current with Some rest => Some (ps :: rest) | None => None end
           end) in IH.
        destruct (kp_next (S (length l)) preds items (Some b)) as [[[ps|] cur]|]; [|exact IH|discriminate].
        destruct (kp_collect (length l) preds items cur) as [rest|] eqn:C; [|discriminate].
        rewrite (kp_collect_mono _ _ _ C). exact IH.
  Qed.

  (** what a bucket receives *)
  Lemma push_at_length i (x : T) ps : length (push_at i x ps) = length ps.
  Proof. apply set_nth_length. Qed.

  Lemma nth_set_nth {A} i j (x d : A) l : nth j (set_nth i x l) d = if (i =? j) && (i <? length l) then x else nth j l d.
  Proof.
    revert i j. induction l as [|y l IH]; intros i j.
    - destruct i; simpl; destruct j; rewrite ?andb_false_r; reflexivity.
    - destruct i as [|i]; destruct j as [|j]; simpl; try reflexivity. apply IH.
  Qed.

  Lemma build_fold (its : list T) a (ps : list (list T)) : (forall j, In j a -> j < length ps) ->
    fold_left (fun ps xi => push_at (snd xi) (fst xi) ps) (combine its a) ps =
    map (fun j => nth j ps [] ++ received its a j) (seq 0 (length ps)).
  Proof.
    revert a ps. induction its as [|x its IH]; intros a ps H.
    - simpl. erewrite map_ext; [|intro j; apply app_nil_r]. symmetry. apply (nth_ext _ _ [] []).
      + rewrite map_length, seq_length. reflexivity.
      + intros n Hn. rewrite map_length, seq_length in Hn.
        rewrite (nth_indep _ [] (nth 0 ps [])) by (rewrite map_length, seq_length; exact Hn).
        rewrite (map_nth (fun j => nth j ps []) (seq 0 (length ps)) 0 n), seq_nth by exact Hn. reflexivity.
    - destruct a as [|i a].
      { simpl. erewrite map_ext; [|intro j; apply app_nil_r]. symmetry. apply (nth_ext _ _ [] []).
        + rewrite map_length, seq_length. reflexivity.
        + intros n Hn. rewrite map_length, seq_length in Hn.
          rewrite (nth_indep _ [] (nth 0 ps [])) by (rewrite map_length, seq_length; exact Hn).
          rewrite (map_nth (fun j => nth j ps []) (seq 0 (length ps)) 0 n), seq_nth by exact Hn. reflexivity. }
      cbn [combine fold_left fst snd]. rewrite IH.
      + rewrite push_at_length. apply map_ext_in. intros j Hj. unfold push_at. rewrite nth_set_nth.
        assert (Hi : i < length ps) by (apply H; left; reflexivity). apply Nat.ltb_lt in Hi. rewrite Hi, andb_true_r.
        cbn [received]. destruct (Nat.eqb_spec i j) as [->|N]; [rewrite <- app_assoc; reflexivity|reflexivity].
      + intros j Hj. rewrite push_at_length. apply H. right. exact Hj.
  Qed.

  Lemma build_distribution n a : sends n k a -> build_partition items k a = distribution items k a.
  Proof.
    intros [_ H]. unfold build_partition. rewrite build_fold by (rewrite repeat_length; exact H).
    rewrite repeat_length. unfold distribution. apply map_ext_in. intros j Hj. rewrite nth_repeat. reflexivity.
  Qed.

  Lemma valid_respects ps : length ps = k -> (kp_valid preds ps = true <-> respects preds ps).
  Proof.
    unfold kp_valid, respects, k. revert ps. induction preds as [|p l IH]; intros [|s ps] E; try discriminate.
    - simpl. split; [constructor|reflexivity].
    - injection E as E. simpl. rewrite andb_true_iff, (IH ps E). split.
      + intros [A B]. constructor; assumption.
      + intro H. inversion H; subst. auto.
  Qed.

  Lemma distribution_length a : length (distribution items k a) = k.
  Proof. unfold distribution. rewrite map_length. apply seq_length. Qed.

  Lemma kp_all : 0 < k \/ length items = 0 -> exists fuel l,
    (forall g, fuel <= g -> kp_collect g preds items (kp_start items) = Some (map (distribution items k) l)) /\
    NoDup l /\ forall a, In a l <-> sends (length items) k a /\ respects preds (distribution items k a).
  Proof.
    intro H. destruct (kp_walk (length items) k H) as (l & W & ND & M).
    exists (S (length l)), (filter (fun a => kp_valid preds (build_partition items k a)) l). split; [|split].
    - intros g Hg. apply (kp_collect_le _ _ _ _ Hg). unfold kp_start. rewrite (kp_collect_walk _ _ W). f_equal.
      unfold produced. clear W ND Hg. assert (M' : forall a, In a l -> sends (length items) k a) by (intros a; apply M). clear M.
      induction l as [|a l IH]; [reflexivity|]. cbn [map filter].
      destruct (kp_valid preds (build_partition items k a)); [|apply IH; intros; apply M'; right; assumption].
      cbn [map]. f_equal; [|apply IH; intros; apply M'; right; assumption].
      apply (build_distribution (length items)). apply M'. left. reflexivity.
    - apply NoDup_filter. exact ND.
    - intro a. rewrite filter_In, M. split; intros [Sa V]; (split; [exact Sa|]).
      + rewrite (build_distribution _ _ Sa) in V. apply valid_respects in V; [exact V|apply distribution_length].
      + rewrite (build_distribution _ _ Sa). apply valid_respects; [apply distribution_length|exact V].
  Qed.
End KP.

Lemma kp_items_in {T} (preds : list (list T -> bool)) items x :
  In x (kp_items preds items) <-> In x items /\ exists p, In p preds /\ p [x] = true.
Proof. unfold kp_items. rewrite filter_In, existsb_exists. tauto. Qed.

Lemma k_partitions_all {T} (preds : list (list T -> bool)) items : exists fuel l,
  let placed := kp_items preds items in
  (forall g, fuel <= g -> k_partitions g preds items = Some (map (distribution placed (length preds)) l)) /\
  NoDup l /\ forall a, In a l <-> sends (length placed) (length preds) a /\ respects preds (distribution placed (length preds) a).
Proof.
  apply kp_all. destruct preds as [|p preds]; [|left; simpl; lia]. right.
  unfold kp_items. simpl. induction items; [reflexivity|simpl; assumption].
Qed.
