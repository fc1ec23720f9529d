(** The cache does not change verdicts, stratified or not. *)
From Coq Require Import List Arith Bool Permutation Lia.
Import ListNotations.
From Verif Require Import GraphModel GraphSpec GraphLemmas ProveModel ProveSpec.

Section Hist.
  Variable dep : nat -> list nat.
  Variable missing is_abstract : nat -> bool.
  Variable desc : nat -> list nat.
  Variable check : nat -> (nat -> bool) -> bool.
  Variable ord : nat -> list nat -> list nat.
  Hypothesis H_ord : orders ord.
  Hypothesis H_local : local dep check.
  Hypothesis H_plain : forall k, is_abstract k = false /\ desc k = [].
  Notation prove := (prove dep missing is_abstract desc check ord).
  Notation given := (verdict_given dep check).
  Notation reaches := (reach (fun x y => In y (dep x))).

  Lemma given_fun hyp k b : given hyp k b -> forall b', given hyp k b' -> b = b'.
  Proof.
    induction 1 as [hyp k T A B IH]. intros b' G. inversion G as [hyp0 k0 T' A' B' X Y Z]; subst.
    apply H_local. intros j J. destruct (in_dec Nat.eq_dec j (k :: hyp)) as [I|I].
    - rewrite (A j J I), (A' j J I). reflexivity.
    - exact (IH j J I (T' j) (B' j J I)).
  Qed.

  (** a verdict that rests on no assumption *)
  Inductive settled : nat -> bool -> Prop :=
  | settled_intro k T : (forall j, In j (dep k) -> settled j (T j)) -> settled k (check k T).

  Lemma settled_acyclic k b : settled k b -> forall j, In j (dep k) -> ~ reaches j k.
  Proof.
    induction 1 as [k T A IH]. intros j J R. inversion R as [a X Y|a c d Hc Rc X Y]; subst.
    - exact (IH k J k J (reach_refl _ k)).
    - apply (IH j J c Hc). apply (reach_trans _ c k j); [exact Rc|]. apply reach_one. exact J.
  Qed.

  Lemma settled_given k b : settled k b -> forall hyp, (forall h, In h hyp -> reaches h k) -> given hyp k b.
  Proof.
    induction 1 as [k T A IH]. intros hyp R.
    pose proof (settled_acyclic k (check k T) (settled_intro k T A)) as AC.
    assert (N : forall j, In j (dep k) -> ~ In j (k :: hyp)).
    { intros j J [<-|I]; [exact (AC k J (reach_refl _ k))|exact (AC j J (R j I))]. }
    constructor.
    - intros j J I. destruct (N j J I).
    - intros j J _. apply (IH j J). intros h [<-|I]; [apply reach_one; exact J|].
      apply (reach_trans _ h k j (R h I)). apply reach_one. exact J.
  Qed.

  Definition settled_cache (s : state) : Prop := forall k b, lookup k (cache s) = Some b -> settled k b.

  Definition well (hyp : list nat) (k : nat) (s : state) (o : outcome) (s' : state) : Prop :=
    settled_cache s' /\
    match o with
    | Verdict b => exists m, touched s' = touched s || m /\ given hyp k b /\ (m = false -> settled k b)
    | _ => True
    end.

  Lemma prove_each_well hyp rec l :
    (forall j s o s', In j l -> settled_cache s -> rec j s = (o, s') -> well hyp j s o s') ->
    forall passed s r s', settled_cache s -> prove_each rec l passed s = (r, s') ->
    settled_cache s' /\
    match r with
    | inr out => exists m, touched s' = touched s || m /\ (forall c, In c passed -> In c out) /\
        (forall c, In c out -> In c passed \/ In c l) /\
        (forall c, In c l -> exists b, given hyp c b /\ (b = true -> In c out) /\ (m = false -> settled c b)) /\
        (forall c, In c out -> In c passed \/ given hyp c true)
    | inl _ => True
    end.
  Proof.
    induction l as [|k l IH]; intros R passed s r s' S E.
    - injection E as <- <-. split; [exact S|]. exists false. rewrite orb_false_r. split; [reflexivity|].
      split; [auto|]. split; [auto|]. split; [intros c []|auto].
    - cbn [prove_each] in E. destruct (rec k s) as [o s1] eqn:Ek.
      destruct (R k s o s1 (or_introl eq_refl) S Ek) as [S1 G].
      assert (R' : forall j s o s', In j l -> settled_cache s -> rec j s = (o, s') -> well hyp j s o s')
        by (intros j t o' t' Hj; apply R; right; exact Hj).
      destruct o as [| |b].
      + injection E as <- <-. split; [exact S1|exact I].
      + injection E as <- <-. split; [exact S1|exact I].
      + destruct G as (m & Tm & Gk & Sk). destruct b.
        * destruct (IH R' (k :: passed) s1 r s' S1 E) as [S' X]. split; [exact S'|]. destruct r as [o|out]; [exact I|].
          destruct X as (m' & Tm' & A & A2 & B & C). exists (m || m'). split; [rewrite Tm', Tm; symmetry; apply orb_assoc|].
          split; [intros c Hc; apply A; right; exact Hc|]. split; [|split].
          -- intros c Hc. destruct (A2 c Hc) as [[<-|X]|X]; [right; left; reflexivity|left; exact X|right; right; exact X].
          -- intros c [<-|Hc].
             ++ exists true. split; [exact Gk|]. split; [intros _; apply A; left; reflexivity|]. intro Z. apply orb_false_iff in Z. exact (Sk (proj1 Z)).
             ++ destruct (B c Hc) as (b & B1 & B2 & B3). exists b. split; [exact B1|]. split; [exact B2|]. intro Z. apply orb_false_iff in Z. exact (B3 (proj2 Z)).
          -- intros c Hc. destruct (C c Hc) as [[<-|X]|X]; [right; exact Gk|left; exact X|right; exact X].
        * destruct (IH R' passed s1 r s' S1 E) as [S' X]. split; [exact S'|]. destruct r as [o|out]; [exact I|].
          destruct X as (m' & Tm' & A & A2 & B & C). exists (m || m'). split; [rewrite Tm', Tm; symmetry; apply orb_assoc|].
          split; [exact A|]. split; [|split].
          -- intros c Hc. destruct (A2 c Hc) as [X|X]; [left; exact X|right; right; exact X].
          -- intros c [<-|Hc].
             ++ exists false. split; [exact Gk|]. split; [discriminate|]. intro Z. apply orb_false_iff in Z. exact (Sk (proj1 Z)).
             ++ destruct (B c Hc) as (b & B1 & B2 & B3). exists b. split; [exact B1|]. split; [exact B2|]. intro Z. apply orb_false_iff in Z. exact (B3 (proj2 Z)).
          -- exact C.
  Qed.

  Lemma prove_well fuel : forall k hyp s o s', (forall h, In h hyp -> reaches h k) -> settled_cache s ->
    prove fuel k hyp s = (o, s') -> well hyp k s o s'.
  Proof.
    induction fuel as [|f IH]; intros k hyp s o s' HR S E.
    { injection E as <- <-. split; [exact S|exact I]. }
    cbn [ProveModel.prove] in E. destruct (lookup k (cache s)) as [b|] eqn:Ec.
    { injection E as <- <-. split; [exact S|]. exists false. rewrite orb_false_r. split; [reflexivity|].
      split; [|intros _; exact (S k b Ec)]. exact (settled_given k b (S k b Ec) hyp HR). }
    destruct (missing k); [injection E as <- <-; split; [exact S|exact I]|].
    set (hyp' := k :: hyp) in *. set (cands := nodup Nat.eq_dec (dep k)) in *.
    set (s1 := mkState (cache s) (existsb (fun c => mem c hyp') cands) (Datatypes.S (tick s))) in *.
    set (cleaned := ord (tick s) (filter (fun c => negb (mem c hyp')) cands)) in *.
    set (rec := fun (j : nat) (st : state) => prove f j hyp' st) in *.
    assert (Cin : forall c, In c cleaned <-> In c (dep k) /\ ~ In c hyp').
    { intro c. unfold cleaned. split.
      - intro X. apply (Permutation_in _ (H_ord _ _)) in X. apply filter_In in X. destruct X as [X Y].
        apply nodup_In in X. split; [exact X|]. apply negb_true_iff in Y. apply mem_not_In in Y. exact Y.
      - intros [X Y]. apply (Permutation_in _ (Permutation_sym (H_ord _ _))). apply filter_In.
        split; [apply nodup_In; exact X|]. apply negb_true_iff. apply mem_not_In. exact Y. }
    destruct (prove_each rec cleaned [] s1) as [r s2] eqn:Ee.
    destruct (prove_each_well hyp' rec cleaned) with (passed := @nil nat) (s := s1) (r := r) (s' := s2) as [S2 P];
      [|exact S|exact Ee|].
    { intros j t o' t' Hj St Er. apply Cin in Hj. apply (IH j hyp' t o' t'); [|exact St|exact Er].
      intros h [<-|Hh]; [apply reach_one; exact (proj1 Hj)|]. apply (reach_trans _ h k j (HR h Hh)). apply reach_one. exact (proj1 Hj). }
    destruct r as [o2|passed].
    { injection E as <- <-. split; [exact S2|]. clear - Ee. revert Ee. generalize s1. generalize (@nil nat).
      induction cleaned as [|x l IH]; intros p st Ee; [discriminate|]. cbn [prove_each] in Ee.
      destruct (rec x st) as [[| |[|]] st']; try (injection Ee as <- _; exact I); exact (IH _ _ Ee). }
    destruct P as (m & Tm & _ & A2 & B & C). cbn [touched s1] in Tm.
    set (typing := hyp' ++ passed) in *.
    assert (Tin : forall j, In j (dep k) -> In j hyp' -> mem j typing = true)
      by (intros j _ X; apply mem_In; apply in_app_iff; left; exact X).
    assert (Tout : forall j, In j (dep k) -> ~ In j hyp' -> given hyp' j (mem j typing) /\ (m = false -> settled j (mem j typing))).
    { intros j J N. destruct (B j (proj2 (Cin j) (conj J N))) as (b & B1 & B2 & B3).
      assert (Eb : mem j typing = b); [|rewrite Eb; split; assumption].
      destruct b.
      - apply mem_In. apply in_app_iff. right. exact (B2 eq_refl).
      - apply mem_not_In. intro X. apply in_app_iff in X. destruct X as [X|X]; [exact (N X)|].
        destruct (C j X) as [[]|Y]. discriminate (given_fun _ _ _ B1 _ Y). }
    assert (Gk : given hyp k (check k (fun j => mem j typing))).
    { constructor; [exact Tin|]. intros j J N. exact (proj1 (Tout j J N)). }
    assert (Sk : touched s2 = false -> settled k (check k (fun j => mem j typing))).
    { intro Z. rewrite Tm in Z. apply orb_false_iff in Z. destruct Z as [Z1 Z2].
      apply (settled_intro k (fun j => mem j typing)). intros j J. apply (Tout j J); [|exact Z2]. intro X. apply mem_In in X.
      assert (Y : existsb (fun c => mem c hyp') cands = true); [|congruence].
      apply existsb_exists. exists j. split; [apply nodup_In; exact J|exact X]. }
    destruct (H_plain k) as [Ab De]. unfold check_idx in E. rewrite Ab, De in E.
    assert (E' : (Verdict (check k (fun j => mem j typing)),
      mkState (if touched s2 then cache s2 else (k, check k (fun j => mem j typing)) :: cache s2) (touched s || touched s2) (tick s2)) = (o, s')).
    { cbn [first_proved] in E. destruct (check k (fun j => mem j typing)); exact E. }
    injection E' as <- <-. split.
    - intros x c Lx. cbn [cache] in Lx. destruct (touched s2) eqn:Z; [exact (S2 x c Lx)|].
      cbn [lookup] in Lx. destruct (Nat.eqb x k) eqn:Y; [|exact (S2 x c Lx)].
      apply Nat.eqb_eq in Y. subst x. injection Lx as <-. exact (Sk eq_refl).
    - exists (touched s2). split; [reflexivity|]. split; [exact Gk|exact Sk].
  Qed.
End Hist.
