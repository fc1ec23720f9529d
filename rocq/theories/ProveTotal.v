From Coq Require Import List Arith Bool Permutation Lia.
Import ListNotations.
From Verif Require Import GraphModel GraphLemmas ProveModel ProveSpec ProveLemmas.

Section Total.
  Variable dep : nat -> list nat.
  Variable missing is_abstract : nat -> bool.
  Variable desc : nat -> list nat.
  Variable check : nat -> (nat -> bool) -> bool.
  Variable ord : nat -> list nat -> list nat.
  Variable rank : nat -> nat.
  Variable all : list nat.
  Hypothesis H_ord : orders ord.
  Hypothesis H_closed : closed dep desc all.
  Hypothesis H_desc : descends desc all rank.
  Notation prove := (prove dep missing is_abstract desc check ord).

  Lemma left_over_le U disc n : left_over U (n :: disc) <= left_over U disc.
  Proof.
    apply filter_length_le. intros x _ H. cbn [mem existsb] in H. apply negb_true_iff in H. apply orb_false_iff in H.
    apply negb_true_iff. exact (proj2 H).
  Qed.

  Lemma prove_each_fuel rec l : (forall j s, In j l -> fst (rec j s) <> Fuel) ->
    forall passed s, fst (prove_each rec l passed s) <> inl Fuel.
  Proof.
    induction l as [|k l IH]; intros R passed s; [discriminate|]. cbn [prove_each].
    pose proof (R k s (or_introl eq_refl)) as X. destruct (rec k s) as [[| |[|]] s']; cbn [fst] in *; try congruence;
      apply IH; intros j t Hj; apply R; right; exact Hj.
  Qed.
  Lemma first_proved_fuel rec l : (forall j s, In j l -> fst (rec j s) <> Fuel) -> forall s, fst (first_proved rec l s) <> Fuel.
  Proof.
    induction l as [|k l IH]; intros R s; [discriminate|]. cbn [first_proved].
    pose proof (R k s (or_introl eq_refl)) as X. destruct (rec k s) as [[| |[|]] s']; cbn [fst] in *; try congruence.
    apply IH; intros j t Hj; apply R; right; exact Hj.
  Qed.

  Lemma prove_enough R : (forall k, In k all -> rank k <= R) ->
    forall fuel k hyp s, In k all -> left_over all (k :: hyp) * S R + rank k < fuel -> fst (prove fuel k hyp s) <> Fuel.
  Proof.
    intro HR. induction fuel as [|f IH]; intros k hyp s K L; [lia|]. cbn [ProveModel.prove].
    destruct (lookup k (cache s)); [discriminate|]. destruct (missing k); [discriminate|].
    set (hyp' := k :: hyp) in *.
    assert (RD : forall j t, In j (desc k) -> fst (prove f j hyp' t) <> Fuel).
    { intros j t Hj. apply IH; [exact (H_closed k j K (or_intror Hj))|]. pose proof (left_over_le all hyp' j).
      pose proof (H_desc k j K Hj). nia. }
    match goal with |- context [prove_each ?r ?l ?p ?s1] => pose proof (prove_each_fuel r l) as PE; specialize (fun H => PE H p s1); 
      destruct (prove_each r l p s1) as [[o|passed] s2] eqn:E end.
    - cbn [fst] in *. intros ->. apply PE; [|reflexivity]. intros j t Hj.
      apply (Permutation_in _ (H_ord _ _)) in Hj. apply filter_In in Hj. destruct Hj as [Hj Y].
      apply nodup_In in Hj. apply negb_true_iff in Y. apply mem_not_In in Y.
      pose proof (H_closed k j K (or_introl Hj)) as Ja. apply IH; [exact Ja|].
      pose proof (left_over_lt all hyp' j Ja Y). pose proof (HR j Ja). nia.
    - clear PE. unfold check_idx. destruct (is_abstract k).
      + destruct (desc k) as [|d ds] eqn:Ed; [discriminate|].
        match goal with |- context [first_proved ?r ?l ?s1] => pose proof (first_proved_fuel r l) as PE; specialize (fun H => PE H s1);
          destruct (first_proved r l s1) as [[| |b] s3] eqn:E3 end; cbn [fst] in *; try discriminate.
        intros _. apply PE; [|reflexivity]. exact RD.
      + destruct (check k _); [discriminate|].
        match goal with |- context [first_proved ?r ?l ?s1] => pose proof (first_proved_fuel r l) as PE; specialize (fun H => PE H s1);
          destruct (first_proved r l s1) as [[| |b] s3] eqn:E3 end; cbn [fst] in *; try discriminate.
        intros _. apply PE; [|reflexivity]. exact RD.
  Qed.

  Lemma bounded (l : list nat) : exists R, forall k, In k l -> rank k <= R.
  Proof.
    induction l as [|k l [R IH]]; [exists 0; intros k []|]. exists (Nat.max (rank k) R).
    intros j [<-|Hj]; [lia|]. pose proof (IH j Hj). lia.
  Qed.

  Lemma prove_terminates : exists fuel, forall k hyp s, In k all -> fst (prove fuel k hyp s) <> Fuel.
  Proof.
    destruct (bounded all) as [R HR]. exists (S (length all * S R + R)). intros k hyp s K.
    apply (prove_enough R HR); [exact K|]. pose proof (HR k K).
    assert (left_over all (k :: hyp) <= length all); [|nia]. unfold left_over.
    generalize (fun x : nat => negb (mem x (k :: hyp))). intro p. clear. induction all as [|x l IH]; [constructor|].
    cbn [filter]. destruct (p x); cbn [length]; lia.
  Qed.

  Lemma prove_each_err rec l : (forall j s, In j l -> fst (rec j s) <> Err) ->
    forall passed s, fst (prove_each rec l passed s) <> inl Err.
  Proof.
    induction l as [|k l IH]; intros R passed s; [discriminate|]. cbn [prove_each].
    pose proof (R k s (or_introl eq_refl)) as X. destruct (rec k s) as [[| |[|]] s']; cbn [fst] in *; try congruence;
      apply IH; intros j t Hj; apply R; right; exact Hj.
  Qed.
  Lemma first_proved_err rec l : (forall j s, In j l -> fst (rec j s) <> Err) -> forall s, fst (first_proved rec l s) <> Err.
  Proof.
    induction l as [|k l IH]; intros R s; [discriminate|]. cbn [first_proved].
    pose proof (R k s (or_introl eq_refl)) as X. destruct (rec k s) as [[| |[|]] s']; cbn [fst] in *; try congruence.
    apply IH; intros j t Hj; apply R; right; exact Hj.
  Qed.

  (** errors come from missing shapes and from abstract shapes without descendants *)
  Lemma prove_no_err : (forall k, In k all -> missing k = false /\ (is_abstract k = true -> desc k <> [])) ->
    forall fuel k hyp s, In k all -> fst (prove fuel k hyp s) <> Err.
  Proof.
    intro Ok. induction fuel as [|f IH]; intros k hyp s K; [discriminate|]. cbn [ProveModel.prove].
    destruct (lookup k (cache s)); [discriminate|]. destruct (Ok k K) as [-> Ab].
    set (hyp' := k :: hyp) in *.
    assert (RD : forall j t, In j (desc k) -> fst (prove f j hyp' t) <> Err)
      by (intros j t Hj; apply IH; exact (H_closed k j K (or_intror Hj))).
    match goal with |- context [prove_each ?r ?l ?p ?s1] => pose proof (prove_each_err r l) as PE; specialize (fun H => PE H p s1); 
      destruct (prove_each r l p s1) as [[o|passed] s2] eqn:E end.
    - cbn [fst] in *. intros ->. apply PE; [|reflexivity]. intros j t Hj.
      apply (Permutation_in _ (H_ord _ _)) in Hj. apply filter_In in Hj. destruct Hj as [Hj Y].
      apply nodup_In in Hj. apply IH. exact (H_closed k j K (or_introl Hj)).
    - clear PE. unfold check_idx. destruct (is_abstract k).
      + destruct (desc k) as [|d ds] eqn:Ed; [destruct (Ab eq_refl eq_refl)|].
        match goal with |- context [first_proved ?r ?l ?s1] => pose proof (first_proved_err r l) as PE; specialize (fun H => PE H s1);
          destruct (first_proved r l s1) as [[| |b] s3] eqn:E3 end; cbn [fst] in *; try discriminate.
        intros _. apply PE; [|reflexivity]. exact RD.
      + destruct (check k _); [discriminate|].
        match goal with |- context [first_proved ?r ?l ?s1] => pose proof (first_proved_err r l) as PE; specialize (fun H => PE H s1);
          destruct (first_proved r l s1) as [[| |b] s3] eqn:E3 end; cbn [fst] in *; try discriminate.
        intros _. apply PE; [|reflexivity]. exact RD.
  Qed.
End Total.
