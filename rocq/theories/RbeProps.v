(** Properties C01-C09: bag matching and cardinalities.  [None] is the answer
    [Ok(())] of the Rust functions, [Some _] an [Err]. *)

Require Import List Arith Permutation ZArith Lia.
Import ListNotations.
From Verif Require Import RbeModel RbeSpec RbeDeriv RbeInterval RbeOpen RbeFeasModel RbeFeas
  CardModel CardLemmas RbeFinal.

Ltac concrete := unfold wf, no00, no_fail, open_safe; simpl; repeat split;
  repeat constructor; simpl; intros; subst; try discriminate; try lia.

(** an expression used in the examples: [(a{1,2} ; [b | c]* ){1,3}] *)
Definition ex_group : rbe :=
  Repeat (And [Symbol 0 (mkCard 1 (IntMax 2));
               Star (Or [Symbol 1 (mkCard 1 (IntMax 1)); Symbol 2 (mkCard 1 (IntMax 1))])])
         (mkCard 1 (IntMax 3)).
(** the same with a repeated symbol: [(a ; b) | (a ; c)+] *)
Definition ex_shared : rbe :=
  Or [And [Symbol 0 (mkCard 1 (IntMax 1)); Symbol 1 (mkCard 1 (IntMax 1))];
      Plus (And [Symbol 0 (mkCard 1 (IntMax 1)); Symbol 2 (mkCard 1 (IntMax 1))])].

(** ** C01 *)

Theorem C01_derivative_decides_language (e : rbe) (b : list nat) :
  wf e -> no00 e ->
  (match_bag_deriv e b false = None <-> lang e (bag_of b)).
Proof. exact (match_bag_deriv_closed e b). Qed.
Print Assumptions C01_derivative_decides_language.

Example C01_hypotheses_met :
  wf ex_group /\ no00 ex_group /\ wf ex_shared /\ no00 ex_shared /\
  match_bag_deriv ex_group [1; 0; 2; 0; 0; 1] false = None /\
  match_bag_deriv ex_group [1; 2] false <> None /\
  match_bag_deriv ex_shared [2; 0; 0; 2] false = None.
Proof. repeat split; simpl; try lia; discriminate. Qed.

(** outside the hypotheses the equivalence fails: [(a ; b){0,0}] accepts [a] *)
Theorem C01_zero_group_refuted : exists (e : rbe) (b : list nat),
  wf e /\ match_bag_deriv e b false = None /\ ~ lang e (bag_of b).
Proof.
  exists (Repeat (And [Symbol 0 (mkCard 1 (IntMax 1)); Symbol 1 (mkCard 1 (IntMax 1))]) (mkCard 0 (IntMax 0))), [0].
  split; [concrete|]. split; [reflexivity|]. intro H. apply lang_00 in H.
  specialize (H 0). discriminate.
Qed.
Print Assumptions C01_zero_group_refuted.

(** a conjunction with an empty choice accepts the empty bag *)
Theorem C01_empty_choice_refuted : exists (e : rbe) (b : list nat),
  no00 e /\ match_bag_deriv e b false = None /\ ~ lang e (bag_of b).
Proof.
  exists (And [Or []; Symbol 0 (mkCard 0 (IntMax 1))]), [].
  split; [concrete|]. split; [reflexivity|].
  intros (b1 & b2 & _ & H & _). exact H.
Qed.
Print Assumptions C01_empty_choice_refuted.

(** [a?{3,2}] accepts the empty bag *)
Theorem C01_reversed_bounds_refuted : exists (e : rbe) (b : list nat),
  no00 e /\ match_bag_deriv e b false = None /\ ~ lang e (bag_of b).
Proof.
  exists (Repeat (Symbol 0 (mkCard 0 (IntMax 1))) (mkCard 3 (IntMax 2))), [].
  split; [concrete|]. split; [reflexivity|].
  intros (k & [H1 H2] & _). cbn in H1, H2. lia.
Qed.
Print Assumptions C01_reversed_bounds_refuted.

(** ** C02 *)

Theorem C02_order_independent (e : rbe) (b c : list nat) :
  wf e -> no00 e -> Permutation b c ->
  (match_bag_deriv e b false = None <-> match_bag_deriv e c false = None).
Proof. exact (match_bag_deriv_perm e b c). Qed.
Print Assumptions C02_order_independent.

Example C02_hypotheses_met :
  wf ex_shared /\ no00 ex_shared /\ Permutation [0; 2; 0; 2] [2; 2; 0; 0] /\
  deriv ex_shared 0 1 false [] <> deriv ex_shared 2 1 false [].
Proof.
  split; [concrete|]. split; [concrete|]. split; [|discriminate].
  apply (Permutation_count_occ Nat.eq_dec). intro x. cbn [count_occ].
  destruct (Nat.eq_dec 0 x), (Nat.eq_dec 2 x); lia.
Qed.

(** ** C03 *)

(** the interval of a bag is the set of numbers of repetitions it can be split into *)
Theorem C03_interval_meaning (e : rbe) (b : list nat) (b' : mbag) (i : nat) :
  wf e -> no_fail e -> single e -> no_repeat e ->
  restrict (fun a => occurs a e) (bag_of b) b' ->
  (int_contains (interval_of e b) i = true <-> pow (lang e) i b').
Proof. exact (interval_exact e b b' i). Qed.
Print Assumptions C03_interval_meaning.

Theorem C03_interval_closed (e : rbe) (b : list nat) :
  wf e -> no_fail e -> single e -> shallow_repeat e ->
  (match_bag_interval (rs_from e) b false = None <-> lang e (bag_of b)).
Proof. exact (match_interval_closed e b). Qed.
Print Assumptions C03_interval_closed.

Theorem C03_interval_open (e : rbe) (b : list nat) (b' : mbag) :
  wf e -> no_fail e -> single e -> shallow_repeat e ->
  restrict (fun a => occurs a e) (bag_of b) b' ->
  (match_bag_interval (rs_from e) b true = None <-> lang e b').
Proof. exact (interval_open_restrict e b b'). Qed.
Print Assumptions C03_interval_open.

(** with nested repetitions an acceptance is still right *)
Theorem C03_interval_nested_sound_partial (e : rbe) (b : list nat) :
  wf e -> no_fail e -> single e ->
  match_bag_interval (rs_from e) b false = None -> lang e (bag_of b).
Proof. exact (match_interval_sound e b). Qed.
Print Assumptions C03_interval_nested_sound_partial.

Example C03_hypotheses_met :
  wf ex_group /\ no_fail ex_group /\ single ex_group /\ shallow_repeat ex_group /\
  match_bag_interval (rs_from ex_group) [1; 0; 2; 0; 0; 1] false = None /\
  match_bag_interval (rs_from ex_group) [1; 0; 2; 0; 0; 1; 7] true = None /\
  match_bag_interval (rs_from ex_group) [0; 0; 0; 0; 0; 0; 0] false <> None.
Proof.
  repeat split; simpl; try lia; try discriminate; repeat constructor; simpl; intros; subst; try lia; tauto.
Qed.

(** with nested repetitions a rejection can be wrong: [((a ; b)?)*] on two a's and
    two b's, and [((a ; b){2,3}){2,2}] on four of each *)
Theorem C03_nested_repeat_refuted : exists (e : rbe) (b : list nat),
  wf e /\ no_fail e /\ single e /\
  match_bag_interval (rs_from e) b false <> None /\ lang e (bag_of b).
Proof.
  exists (Star (Repeat (And [Symbol 0 (mkCard 1 (IntMax 1)); Symbol 1 (mkCard 1 (IntMax 1))]) (mkCard 0 (IntMax 1)))),
         [0; 1; 0; 1].
  split; [concrete|]. split; [concrete|].
  split; [concrete|].
  split; [discriminate|].
  apply match_bag_deriv_closed; [concrete|concrete|reflexivity].
Qed.
Print Assumptions C03_nested_repeat_refuted.

(** ** C04 *)

Theorem C04_matchers_agree (e : rbe) (b : list nat) :
  wf e -> no00 e -> no_fail e -> (single e -> shallow_repeat e) ->
  (match_bag_interval (rs_from e) b false = None <-> match_bag_deriv e b false = None).
Proof. exact (matchers_agree e b). Qed.
Print Assumptions C04_matchers_agree.

Theorem C04_fast_path_sound (e : rbe) (b : list nat) :
  wf e -> no00 e -> no_fail e ->
  match_bag_interval (rs_from e) b false = None -> match_bag_deriv e b false = None.
Proof. exact (matchers_agree_one_way e b). Qed.
Print Assumptions C04_fast_path_sound.

Example C04_hypotheses_met :
  wf ex_group /\ no00 ex_group /\ no_fail ex_group /\ (single ex_group -> shallow_repeat ex_group) /\
  rs_repeats (rs_from ex_group) = false /\ rs_repeats (rs_from ex_shared) = true.
Proof. repeat split; simpl; try lia; discriminate. Qed.

Theorem C04_nested_repeat_refuted : exists (e : rbe) (b : list nat),
  wf e /\ no00 e /\ no_fail e /\
  match_bag_interval (rs_from e) b false <> None /\ match_bag_deriv e b false = None.
Proof.
  exists (Star (Repeat (And [Symbol 0 (mkCard 1 (IntMax 1)); Symbol 1 (mkCard 1 (IntMax 1))]) (mkCard 0 (IntMax 1)))),
         [0; 1; 0; 1].
  repeat split; simpl; try lia; discriminate.
Qed.
Print Assumptions C04_nested_repeat_refuted.

(** ** C05 *)

Theorem C05_zero_group_interval (e : rbe) (b : list nat) :
  wf e -> no_fail e -> single e -> no_repeat e ->
  (match_bag_interval (rs_from (Repeat e (mkCard 0 (IntMax 0)))) b false = None <-> b = []).
Proof. exact (interval_00 e b). Qed.
Print Assumptions C05_zero_group_interval.

Example C05_hypotheses_met :
  let e := And [Symbol 0 (mkCard 1 (IntMax 2)); Star (Symbol 1 (mkCard 1 (IntMax 1)))] in
  wf e /\ no_fail e /\ single e /\ no_repeat e.
Proof. simpl. repeat split; repeat constructor; simpl; intros; subst; lia. Qed.

(** the derivative matcher accepts a non-empty bag, even one with a foreign symbol *)
Theorem C05_zero_group_refuted :
  (exists (e : rbe) (b : list nat), b <> [] /\
     match_bag_deriv (Repeat e (mkCard 0 (IntMax 0))) b false = None) /\
  (exists (e : rbe) (x : nat), ~ occurs x e /\
     match_bag_deriv (Repeat e (mkCard 0 (IntMax 0))) [x] false = None).
Proof.
  split.
  - exists (And [Symbol 0 (mkCard 1 (IntMax 1)); Symbol 1 (mkCard 1 (IntMax 1))]), [0]. split; [discriminate|reflexivity].
  - exists (Symbol 0 (mkCard 1 (IntMax 1))), 1. split; [discriminate|reflexivity].
Qed.
Print Assumptions C05_zero_group_refuted.

(** ** C06 *)

Theorem C06_open_interval (e : rbe) (b c : list nat) :
  wf e -> no_fail e -> single e -> shallow_repeat e ->
  restrict (fun a => occurs a e) (bag_of b) (bag_of c) ->
  (match_bag_interval (rs_from e) b true = None <-> match_bag_interval (rs_from e) c false = None).
Proof. exact (interval_open_closed e b c). Qed.
Print Assumptions C06_open_interval.

Theorem C06_open_derivative (e : rbe) (b c : list nat) :
  wf e -> no00 e -> open_safe e ->
  restrict (fun a => occurs a e) (bag_of b) (bag_of c) ->
  (match_bag_deriv e b true = None <-> match_bag_deriv e c false = None).
Proof. exact (deriv_open_closed e b c). Qed.
Print Assumptions C06_open_derivative.

Example C06_hypotheses_met :
  wf ex_group /\ no00 ex_group /\ open_safe ex_group /\
  restrict (fun a => occurs a ex_group) (bag_of [9; 0; 1; 8]) (bag_of [0; 1]).
Proof.
  split; [concrete|]. split; [concrete|].
  split; [concrete|]. intro a. unfold bag_of. split; intro H.
  - simpl in H. destruct H as [-> |[[-> |[-> |[]]]|[]]]; reflexivity.
  - assert (a <> 0 /\ a <> 1) by (split; intro; subst; apply H; simpl; tauto).
    destruct a as [|[|a]]; try lia. reflexivity.
Qed.

(** an optional group must match after a foreign symbol *)
Theorem C06_optional_group_refuted : exists (e : rbe) (x : nat),
  wf e /\ no00 e /\ ~ occurs x e /\
  match_bag_deriv e [] false = None /\ match_bag_deriv e [x] true <> None.
Proof.
  exists (Repeat (And [Symbol 0 (mkCard 1 (IntMax 1)); Symbol 1 (mkCard 1 (IntMax 1))]) (mkCard 0 (IntMax 1))), 2.
  split; [concrete|]. split; [concrete|].
  split; [simpl; lia|]. split; [reflexivity|discriminate].
Qed.
Print Assumptions C06_optional_group_refuted.

(** the empty conjunction rejects a foreign symbol *)
Theorem C06_empty_conjunction_refuted :
  match_bag_deriv (And []) [] false = None /\ match_bag_deriv (And []) [0] true <> None.
Proof. split; [reflexivity|discriminate]. Qed.
Print Assumptions C06_empty_conjunction_refuted.

(** ** C07 *)

Theorem C07_feasibility_refutes (lo hi : nat -> nat) (e : rbe) (c : mbag) :
  (single e \/ forall a, lo a = 0) ->
  feasible lo hi e = false -> (forall a, lo a <= c a <= hi a) -> ~ lang e c.
Proof. exact (feasible_refutes lo hi e c). Qed.
Print Assumptions C07_feasibility_refutes.

Example C07_hypotheses_met :
  single ex_group /\ feasible (fun _ => 0) (fun a => if a =? 0 then 0 else 5) ex_group = false /\
  feasible (fun a => if a =? 1 then 1 else 0) (fun _ => 2) ex_group = true.
Proof. repeat split; repeat constructor; simpl; intros; subst; try lia; tauto. Qed.

(** with committed occurrences of a symbol that occurs in two branches the answer
    [false] is wrong: [a | (a ; b)] with one [a] committed *)
Theorem C07_shared_symbol_refuted : exists (e : rbe) (lo hi : nat -> nat) (c : mbag),
  (forall a, lo a <= c a <= hi a) /\ lang e c /\ feasible lo hi e = false.
Proof.
  exists (Or [Symbol 0 (mkCard 1 (IntMax 1)); And [Symbol 0 (mkCard 1 (IntMax 1)); Symbol 1 (mkCard 1 (IntMax 1))]]),
         (bone 0), (bone 0), (bone 0).
  split; [intro a; split; apply le_n|]. split; [|reflexivity]. left. split.
  - intros a H. unfold bone. destruct a; [contradiction|reflexivity].
  - split; exact (le_n 1).
Qed.
Print Assumptions C07_shared_symbol_refuted.

(** ** C08 *)

Theorem C08_contains (c : card) (n : nat) : card_contains c n = true <-> in_card n c.
Proof. exact (card_contains_spec c n). Qed.
Print Assumptions C08_contains.

Theorem C08_nullable (c : card) : le_max (cmin c) (cmax c) -> (card_nullable c = true <-> in_card 0 c).
Proof. exact (card_nullable_spec c). Qed.
Print Assumptions C08_nullable.

Theorem C08_minus (c : card) (n k : nat) :
  le_max n (cmax c) -> (in_card k (card_minus c n) <-> in_card (k + n) c).
Proof. exact (card_minus_spec c n k). Qed.
Print Assumptions C08_minus.

Theorem C08_greater (a b : max) : max_gt a b = true <-> max_le b a /\ ~ max_le a b.
Proof. exact (max_gt_spec a b). Qed.
Print Assumptions C08_greater.

Theorem C08_min (a b : max) (n : nat) : le_max n (max_min a b) <-> le_max n a /\ le_max n b.
Proof. exact (max_min_spec a b n). Qed.
Print Assumptions C08_min.

Theorem C08_max (a b : max) (n : nat) : le_max n (max_max a b) <-> le_max n a \/ le_max n b.
Proof. exact (max_max_spec a b n). Qed.
Print Assumptions C08_max.

Theorem C08_plus (a b : max) (n : nat) :
  le_max n (max_plus a b) <-> exists i j, n = i + j /\ le_max i a /\ le_max j b.
Proof. exact (max_plus_spec a b n). Qed.
Print Assumptions C08_plus.

Example C08_hypotheses_met :
  le_max 2 (cmax (mkCard 1 (IntMax 3))) /\ in_card 1 (card_minus (mkCard 1 (IntMax 3)) 2) /\
  ~ in_card 2 (card_minus (mkCard 1 (IntMax 3)) 2).
Proof. unfold in_card. simpl. repeat split; lia. Qed.

(** removing more occurrences than the bound allows does not fail *)
Theorem C08_minus_beyond_bound_refuted : exists (c : card) (n k : nat),
  in_card k (card_minus c n) /\ ~ in_card (k + n) c.
Proof. exists (mkCard 0 (IntMax 1)), 2, 0. unfold in_card; simpl. lia. Qed.
Print Assumptions C08_minus_beyond_bound_refuted.

(** ** C09 *)
Local Open Scope Z_scope.

Theorem C09_max_json_round_trip (m : zmax) : (forall n, m = ZIntMax n -> 0 <= n < 2 ^ 63) ->
  max_from_json (max_serialize m) = ROk m.
Proof. exact (max_json_round_trip m). Qed.
Print Assumptions C09_max_json_round_trip.

Theorem C09_max_signed_round_trip (m : zmax) : (forall n, m = ZIntMax n -> 0 < n < 2 ^ 63) ->
  max_visit_i64 (max_serialize m) = ROk m.
Proof. exact (max_signed_round_trip m). Qed.
Print Assumptions C09_max_signed_round_trip.

Theorem C09_min_json_round_trip (n : Z) : 0 <= n < 2 ^ 64 -> min_from_json (min_serialize n) = ROk n.
Proof. exact (min_round_trip n). Qed.
Print Assumptions C09_min_json_round_trip.

Example C09_hypotheses_met :
  (forall n, ZIntMax 5 = ZIntMax n -> 0 < n < 2 ^ 63) /\ max_serialize (ZIntMax 5) = 5 /\
  max_serialize ZUnbounded = -1.
Proof. repeat split; injection H; intros; subst; lia. Qed.

(** a maximum of 0 makes the signed reader panic *)
Theorem C09_zero_panics_refuted : exists n, 0 <= n < 2 ^ 64 /\ max_visit_i64 (max_serialize (ZIntMax n)) = RPanic.
Proof. exact (ex_intro _ 0 (conj (conj (Z.le_refl 0) eq_refl) eq_refl)). Qed.
Print Assumptions C09_zero_panics_refuted.

(** maxima above the signed range never survive: all are rejected but the largest,
    which reads back as unbounded *)
Theorem C09_large_max_lost (n : Z) : 2 ^ 63 <= n < 2 ^ 64 ->
  max_from_json (max_serialize (ZIntMax n)) = if n =? 2 ^ 64 - 1 then ROk ZUnbounded else RErr.
Proof. exact (max_json_overflow n). Qed.
Print Assumptions C09_large_max_lost.

Theorem C09_large_max_refuted : exists n, 0 <= n < 2 ^ 64 /\
  max_from_json (max_serialize (ZIntMax n)) <> ROk (ZIntMax n).
Proof. exists (2 ^ 64 - 1). split; [lia|discriminate]. Qed.
Print Assumptions C09_large_max_refuted.

(** the minimum -1, accepted by the reader, becomes the largest number *)
Theorem C09_negative_min_refuted : exists n, n < 0 /\ min_from_json n = ROk u64_max.
Proof. exact (ex_intro _ (-1) (conj eq_refl eq_refl)). Qed.
Print Assumptions C09_negative_min_refuted.
