(** Corollaries of the results about the two bag matchers, in the form used by the
    property theorems. *)

Require Import List Arith Bool Lia Permutation.
Import ListNotations.
From Verif Require Import RbeModel RbeSpec RbeDeriv RbeInterval RbeOpen RbeFeasModel RbeFeas.

Lemma restrict_rb e b b' : restrict (fun a => occurs a e) b b' -> beq (rb (symbols e) b) b'.
Proof.
  intros H a. unfold rb. destruct (mem a (symbols e)) eqn:M.
  - apply mem_spec, symbols_occurs in M. symmetry. apply (proj1 (H a)), M.
  - symmetry. apply (proj2 (H a)). intro O. apply symbols_occurs, mem_spec in O. congruence.
Qed.

(** the interval of a bag, for every number of repetitions *)
Lemma interval_exact e b b' i : wf e -> no_fail e -> single e -> no_repeat e ->
  restrict (fun a => occurs a e) (bag_of b) b' ->
  (int_contains (interval_of e b) i = true <-> pow (lang e) i b').
Proof.
  intros W F S R X. pose proof (exact_no_repeat e b W F S R i) as E. unfold exact_at, within in E. rewrite E.
  apply restrict_rb in X. split; apply pow_ext; [exact X|apply beq_sym; exact X].
Qed.

Lemma interval_open_restrict e b b' : wf e -> no_fail e -> single e -> shallow_repeat e ->
  restrict (fun a => occurs a e) (bag_of b) b' ->
  (match_bag_interval (rs_from e) b true = None <-> lang e b').
Proof.
  intros W F S R X. rewrite match_interval_open by assumption. apply restrict_rb in X.
  split; apply lang_ext; [exact X|apply beq_sym; exact X].
Qed.

Lemma interval_open_closed e b c : wf e -> no_fail e -> single e -> shallow_repeat e ->
  restrict (fun a => occurs a e) (bag_of b) (bag_of c) ->
  (match_bag_interval (rs_from e) b true = None <-> match_bag_interval (rs_from e) c false = None).
Proof.
  intros W F S R X. rewrite (interval_open_restrict e b (bag_of c)) by assumption.
  rewrite match_interval_closed by assumption. tauto.
Qed.

Lemma deriv_open_closed e b c : wf e -> no00 e -> open_safe e ->
  restrict (fun a => occurs a e) (bag_of b) (bag_of c) ->
  (match_bag_deriv e b true = None <-> match_bag_deriv e c false = None).
Proof.
  intros W Z O X. rewrite match_bag_deriv_open, match_bag_deriv_closed by assumption.
  apply restrict_rb in X.
  assert (E : beq (bag_of (filter (fun s => mem s (symbols e)) b)) (bag_of c)).
  { intro a. rewrite <- (rb_filter (symbols e) b a). apply X. }
  split; apply lang_ext; [exact E|apply beq_sym; exact E].
Qed.

(** both matchers *)
Lemma matchers_agree e b : wf e -> no00 e -> no_fail e -> (single e -> shallow_repeat e) ->
  (match_bag_interval (rs_from e) b false = None <-> match_bag_deriv e b false = None).
Proof.
  intros W Z F S. destruct (rs_repeats (rs_from e)) eqn:E.
  - assert (N : ~ single e).
    { intro K. apply rs_from_repeats in K; [congruence|exact F]. }
    rewrite match_interval_repeats by assumption. tauto.
  - apply rs_from_repeats in E; [|exact F]. rewrite match_interval_closed by auto.
    rewrite match_bag_deriv_closed by assumption. tauto.
Qed.

Lemma matchers_agree_one_way e b : wf e -> no00 e -> no_fail e ->
  match_bag_interval (rs_from e) b false = None -> match_bag_deriv e b false = None.
Proof.
  intros W Z F H. destruct (rs_repeats (rs_from e)) eqn:E.
  - assert (N : ~ single e).
    { intro K. apply rs_from_repeats in K; [congruence|exact F]. }
    rewrite match_interval_repeats in H by assumption. exact H.
  - apply rs_from_repeats in E; [|exact F]. apply match_bag_deriv_closed; [assumption..|].
    apply match_interval_sound; assumption.
Qed.

Lemma bag_of_zero b : beq (bag_of b) bzero <-> b = [].
Proof.
  split; [|intros ->; intro a; reflexivity]. intro H. destruct b as [|x b]; [reflexivity|].
  specialize (H x). unfold bag_of, bzero in H. simpl in H. destruct (Nat.eq_dec x x); [discriminate|contradiction].
Qed.

Lemma lang_00 e b : lang (Repeat e (mkCard 0 (IntMax 0))) b <-> beq b bzero.
Proof.
  simpl. split.
  - intros (k & [_ K] & H). cbn in K. assert (k = 0) by lia. subst. exact H.
  - intro H. exists 0. split; [split; [apply le_n|apply le_n]|exact H].
Qed.

Lemma interval_00 e b : wf e -> no_fail e -> single e -> no_repeat e ->
  (match_bag_interval (rs_from (Repeat e (mkCard 0 (IntMax 0)))) b false = None <-> b = []).
Proof.
  intros W F S R. rewrite match_interval_closed; [rewrite lang_00; apply bag_of_zero|..]; try assumption.
  - split; [simpl; lia|exact W].
  - split; [exact I|exact F].
Qed.

Lemma feasible_refutes lo hi e c : (single e \/ forall a, lo a = 0) ->
  feasible lo hi e = false -> (forall a, lo a <= c a <= hi a) -> ~ lang e c.
Proof. intros G F B L. rewrite (feasible_sound lo hi e c G B L) in F. discriminate. Qed.
