(** C50: the explanation of a failed match. *)
From Coq Require Import List Arith Bool Lia.
Import ListNotations.
From Verif Require Import RbeModel RbeSpec RbeDeriv DiagSpec.

Lemma declared_in x c e : declared x c e <-> In (x, c) (symbol_cardinalities e).
Proof.
  split.
  - intro D. induction D; cbn [symbol_cardinalities]; auto; [left; reflexivity| |]; apply in_flat_map; exists e; auto.
  - induction e using rbe_ind'; cbn [symbol_cardinalities]; intro H0; try contradiction.
    + destruct H0 as [H0|[]]. injection H0 as -> ->. constructor.
    + apply in_flat_map in H0 as (v & Iv & H0). rewrite Forall_forall in H. apply (DAnd x c v _ Iv), (H v Iv), H0.
    + apply in_flat_map in H0 as (v & Iv & H0). rewrite Forall_forall in H. apply (DOr x c v _ Iv), (H v Iv), H0.
    + constructor. apply IHe, H0.
    + constructor. apply IHe, H0.
    + constructor. apply IHe, H0.
Qed.
Lemma contains_in c n : card_contains c n = true <-> in_card n c.
Proof.
  unfold card_contains, in_card. rewrite andb_true_iff, Nat.leb_le. destruct (cmax c) as [|k]; cbn; [tauto|]. rewrite Nat.leb_le. reflexivity.
Qed.
Lemma violations_spec r b s c n : In (s, c, n) (violations r b) <-> declared s c (rs_rbe r) /\ n = bag_of b s /\ ~ in_card n c.
Proof.
  unfold violations. rewrite in_flat_map. split.
  - intros ([x d] & H & K). cbn [fst snd] in K. destruct (card_contains d (bag_count b x)) eqn:E; [destruct K|]. destruct K as [K|[]]. injection K as <- <- <-.
    split; [apply declared_in, H|]. split; [reflexivity|]. intro X. apply contains_in in X. unfold bag_of in X. congruence.
  - intros (D & -> & N). exists (s, c). split; [apply declared_in, D|]. cbn [fst snd]. destruct (card_contains c (bag_count b s)) eqn:E; [destruct (N (proj1 (contains_in _ _) E))|]. left. reflexivity.
Qed.
Lemma deriv_bag_silent b open ctl : forall e er, deriv_bag e b open ctl = Fail er -> (b = [] /\ e = Fail er) \/ er = DerivBagError.
Proof.
  induction b as [|x b IH]; intros e er H; cbn [deriv_bag] in H; [left; auto|]. right.
  destruct (deriv e x 1 open ctl) eqn:D; [injection H as <-; reflexivity|..]; destruct (IH _ _ H) as [[_ X]|X]; try discriminate; exact X.
Qed.
Lemma deriv_silent e b open er : no_fail e -> match_bag_deriv e b open = Some er -> failures er = [].
Proof.
  intros NF H. unfold match_bag_deriv in H. destruct (deriv_bag e b open (symbols e)) eqn:D.
  1: { injection H as ->. apply deriv_bag_silent in D as [[_ ->]| ->]; [destruct NF as [[] _]|reflexivity]. }
  all: destruct (is_nullable _) in H; [discriminate|injection H as <-; reflexivity].
Qed.

(** a cardinality failure that is reported names a symbol of the expression, its cardinality there, and the number
    of its occurrences, which is outside that cardinality *)
Theorem C50_truthful r b open er s c n : no_fail (rs_rbe r) -> match_bag_interval r b open = Some er -> In (s, c, n) (failures er) ->
  declared s c (rs_rbe r) /\ n = bag_of b s /\ ~ in_card n c.
Proof.
  intros NF H I. unfold match_bag_interval in H. destruct (rs_repeats r).
  - rewrite (deriv_silent _ _ _ _ NF H) in I. destruct I.
  - destruct (negb open && _); [injection H as <-; destruct I|]. destruct (int_contains _ 1); [discriminate|]. injection H as <-.
    apply violations_spec. unfold diagnose_failure in I. destruct (violations r b) as [|[[s1 c1] n1] [|v2 vs]] eqn:V.
    + destruct (match_bag_deriv (rs_rbe r) b open) eqn:D; [rewrite (deriv_silent _ _ _ _ NF D) in I|]; destruct I.
    + exact I.
    + exact I.
Qed.
Print Assumptions C50_truthful.

(** and when the intervals decide, every such symbol is reported *)
Theorem C50_complete r b open er s c : rs_repeats r = false -> match_bag_interval r b open = Some er -> er <> ExtraSymbolsClosed ->
  declared s c (rs_rbe r) -> ~ in_card (bag_of b s) c -> In (s, c, bag_of b s) (failures er).
Proof.
  intros RP H NE D N. unfold match_bag_interval in H. rewrite RP in H.
  destruct (negb open && _); [injection H as <-; contradiction|]. destruct (int_contains _ 1); [discriminate|]. injection H as <-.
  assert (V : In (s, c, bag_of b s) (violations r b)) by (apply violations_spec; auto).
  unfold diagnose_failure. destruct (violations r b) as [|[[s1 c1] n1] [|v2 vs]]; [destruct V| |]; exact V.
Qed.
Print Assumptions C50_complete.

(** in a conjunction of symbols the symbols reported are to blame: no accepted bag has as many of them *)
Lemma sum_of_flat vs : (forall v, In v vs -> exists x c, v = Symbol x c) -> forall b s c, single (And vs) -> In (Symbol s c) vs -> sum_of (map lang vs) b -> in_card (b s) c.
Proof.
  intros F b s c S I. destruct S as [_ S]. revert b. induction vs as [|v vs IH]; intros b H; [destruct I|]. cbn [map sum_of] in H.
  destruct H as (b1 & b2 & E & H1 & H2). inversion S as [|? ? S1 S2]; subst.
  assert (Z : forall ws bb x, (forall v, In v ws -> exists x c, v = Symbol x c) -> (forall v, In v ws -> ~ occurs x v) -> sum_of (map lang ws) bb -> bb x = 0).
  { clear. induction ws as [|w ws IH]; intros bb x F O H; cbn [map sum_of] in H; [apply H|]. destruct H as (b1 & b2 & E & H1 & H2). rewrite E. unfold bsum.
    rewrite (IH b2 x); [|intros; apply F; right; assumption|intros; apply O; right; assumption|exact H2].
    destruct (F w (or_introl eq_refl)) as (y & d & ->). cbn [lang] in H1. destruct H1 as [H1 _]. rewrite H1; [reflexivity|]. intro X. apply (O _ (or_introl eq_refl)). exact X. }
  destruct I as [->|I].
  - cbn [lang] in H1. destruct H1 as [_ H1]. rewrite E. unfold bsum. rewrite (Z vs b2 s); [rewrite Nat.add_0_r; exact H1|intros; apply F; right; assumption| |exact H2].
    intros v Iv O. rewrite Forall_forall in S1. apply (S1 v Iv s); [reflexivity|exact O].
  - specialize (IH (fun v H => F v (or_intror H)) S2 I b2 H2). rewrite E. unfold bsum. destruct (F v (or_introl eq_refl)) as (y & d & ->).
    cbn [lang] in H1. destruct H1 as [H1 _]. rewrite H1; [exact IH|]. rewrite Forall_forall in S1. intros ->. apply (S1 _ I y); reflexivity.
Qed.
Theorem C50_blame r b open er s c n : flat (rs_rbe r) -> single (rs_rbe r) -> match_bag_interval r b open = Some er -> In (s, c, n) (failures er) ->
  at_fault (rs_rbe r) b s.
Proof.
  intros (vs & E & F) S H I b' L X.
  assert (NF : no_fail (rs_rbe r)).
  { rewrite E. split; [exact Logic.I|]. clear -F. induction vs as [|v vs IH]; cbn [fold_right]; [exact Logic.I|].
    split; [destruct (F v (or_introl eq_refl)) as (x & c & ->); split; exact Logic.I|apply IH; intros; apply F; right; assumption]. }
  destruct (C50_truthful r b open er s c n NF H I) as (D & -> & N). rewrite E in *. inversion D as [|v vs' Iv D'| | | |]; subst.
  destruct (F v Iv) as (x & d & ->). inversion D'; subst. apply N. rewrite <- X. exact (sum_of_flat vs F b' _ _ S Iv L).
Qed.
Print Assumptions C50_blame.

Definition one (x : nat) : rbe := Symbol x (mkCard 1 (IntMax 1)).
Example C50_met : let r := rs_from (And [one 0; one 1]) in flat (rs_rbe r) /\ single (rs_rbe r) /\ no_fail (rs_rbe r) /\ rs_repeats r = false /\
  match_bag_interval r [0; 0] false = Some (CardinalityFailMulti [(0, mkCard 1 (IntMax 1), 2); (1, mkCard 1 (IntMax 1), 0)]).
Proof.
  cbn. split; [|split; [|split; [|split; reflexivity]]].
  - exists [one 0; one 1]. split; [reflexivity|]. intros v [<-|[<-|[]]]; eexists _, _; reflexivity.
  - repeat split; repeat constructor; cbn; intros; subst; lia.
  - repeat split; exact I.
Qed.

(** full statement: for every expression, the symbols reported are to blame.  Below a repetition the declared
    cardinality is that of one round, so a symbol that occurs as often as it should is reported *)
Theorem C50_star_refuted : exists e b er s c n, single e /\ no_fail e /\ match_bag_interval (rs_from e) b false = Some er /\
  In (s, c, n) (failures er) /\ ~ at_fault e b s.
Proof.
  exists (And [Star (Symbol 0 (mkCard 2 (IntMax 2))); one 1]), [0; 0; 0; 0], (CardinalityFailMulti [(0, mkCard 2 (IntMax 2), 4); (1, mkCard 1 (IntMax 1), 0)]), 0, (mkCard 2 (IntMax 2)), 4.
  split; [cbn; repeat split; repeat constructor; cbn; intros; subst; lia|]. split; [cbn; repeat split; exact I|]. split; [reflexivity|].
  split; [left; reflexivity|]. intro A. pose (f := fun x k a : nat => if x =? a then k else 0).
  apply (A (bsum (f 0 4) (f 1 1))); [|reflexivity].
  cbn [lang map sum_of]. exists (f 0 4), (f 1 1). split; [intro; reflexivity|]. split.
  - exists 2. cbn [pow]. exists (f 0 2), (f 0 2). split; [intros [|a]; reflexivity|]. split; [|exists (f 0 2), bzero; split; [intros [|a]; reflexivity|split; [|intro; reflexivity]]].
    + split; [intros [|a] H; [contradiction|reflexivity]|]. unfold in_card. cbn. lia.
    + split; [intros [|a] H; [contradiction|reflexivity]|]. unfold in_card. cbn. lia.
  - exists (f 1 1), bzero. split; [intros [|[|a]]; reflexivity|]. split; [|intro; reflexivity].
    unfold one. split; [intros [|[|a]] H; try contradiction; reflexivity|]. unfold in_card. cbn. lia.
Qed.
Print Assumptions C50_star_refuted.

(** the same for the alternatives of a choice *)
Theorem C50_choice_refuted : exists e b er s c n, single e /\ no_fail e /\ match_bag_interval (rs_from e) b false = Some er /\
  In (s, c, n) (failures er) /\ ~ at_fault e b s.
Proof.
  exists (And [Or [one 0; one 1]; one 2]), [0], (CardinalityFailMulti [(1, mkCard 1 (IntMax 1), 0); (2, mkCard 1 (IntMax 1), 0)]), 1, (mkCard 1 (IntMax 1)), 0.
  split; [cbn; repeat split; repeat constructor; cbn; intros; subst; lia|]. split; [cbn; repeat split; exact I|]. split; [reflexivity|].
  split; [left; reflexivity|]. intro A. pose (f := fun x k a : nat => if x =? a then k else 0).
  apply (A (bsum (f 0 1) (f 2 1))); [|reflexivity].
  cbn [lang map sum_of any_of]. exists (f 0 1), (f 2 1). split; [intro; reflexivity|]. split.
  - left. unfold one. split; [intros [|a] H; [contradiction|reflexivity]|]. unfold in_card. cbn. lia.
  - exists (f 2 1), bzero. split; [intros a; unfold bsum, bzero; lia|]. split; [|intro; reflexivity].
    unfold one. split; [intros [|[|[|a]]] H; try contradiction; reflexivity|]. unfold in_card. cbn. lia.
Qed.
Print Assumptions C50_choice_refuted.
