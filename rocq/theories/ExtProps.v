(** C35: merging extend alternatives. *)
From Coq Require Import List Arith Bool Lia.
Import ListNotations.
From Verif Require Import ExtModel ExtSpec ExtLemmas.

(** Alternatives built with the public operations never repeat a bucket, a constraint, or
    a shape within a scope. *)
Theorem C35_no_repeats (a : alternative) : made a -> no_repeats a.
Proof. exact (made_no_repeats a). Qed.
Print Assumptions C35_no_repeats.

(** The merge has the buckets and the constraint expressions of both, each list in order
    of first occurrence; the scope of each constraint is the union of its scopes. *)
Theorem C35_merge_is_union (a b : alternative) : made a -> made b ->
  a_buckets (merge a b) = firsts (a_buckets a ++ a_buckets b) /\
  map sc_expr (a_constraints (merge a b)) = firsts (map sc_expr (a_constraints a) ++ map sc_expr (a_constraints b)) /\
  (forall c, In c (a_constraints (merge a b)) ->
     sc_scope c = firsts (scopes_of (sc_expr c) (a_constraints a ++ a_constraints b))).
Proof.
  intros Ha Hb. pose proof (made_no_repeats a Ha) as Na. pose proof (made_no_repeats b Hb) as Nb.
  split; [|split].
  - exact (un_firsts (a_buckets a) (a_buckets b) (proj1 Na)).
  - cbn [merge a_constraints]. change (map sc_expr (cun (a_constraints a) (a_constraints b)) = firsts (map sc_expr (a_constraints a) ++ map sc_expr (a_constraints b))).
    rewrite cun_exprs. apply un_firsts. apply Na.
  - intros c Hc. exact (merge_scopes a b c Na Nb Hc).
Qed.
Print Assumptions C35_merge_is_union.

(** [firsts] drops repetitions only *)
Theorem C35_firsts_keeps_all (l : list nat) (x : nat) : NoDup (firsts l) /\ (In x (firsts l) <-> In x l).
Proof. split; [apply firsts_NoDup|apply firsts_In]. Qed.
Print Assumptions C35_firsts_keeps_all.

Theorem C35_merge_laws (a b c : alternative) : made a -> made b -> made c ->
  merge (merge a b) c = merge a (merge b c) /\ merge a a = a /\ merge a alt_default = a /\ merge alt_default a = a.
Proof.
  intros Ha Hb Hc. apply made_no_repeats in Ha, Hb, Hc. split; [exact (merge_assoc a b c Ha Hb Hc)|].
  split; [exact (merge_idem a Ha)|]. split; [apply merge_default|]. apply (proj2 (merge_default a)). exact Ha.
Qed.
Print Assumptions C35_merge_laws.

(** [cross_merge] merges every pair, once, left argument first *)
Theorem C35_cross_merge (l r : list alternative) :
  length (cross_merge l r) = length l * length r /\
  (forall i j a b, nth_error l i = Some a -> nth_error r j = Some b ->
     nth_error (cross_merge l r) (i * length r + j) = Some (merge a b)) /\
  (forall x, In x (cross_merge l r) <-> exists a b, In a l /\ In b r /\ x = merge a b).
Proof.
  split; [|split].
  - induction l as [|a l IH]; [reflexivity|]. unfold cross_merge in *. simpl. rewrite app_length, map_length, IH. reflexivity.
  - induction l as [|a0 l IH]; intros i j a b Hi Hj; [destruct i; discriminate|].
    assert (Lj : j < length r) by (apply nth_error_Some; congruence).
    unfold cross_merge in *. simpl. destruct i as [|i]; simpl in Hi.
    + injection Hi as ->. simpl. rewrite nth_error_app1 by (rewrite map_length; exact Lj). apply map_nth_error. exact Hj.
    + simpl. rewrite nth_error_app2 by (rewrite map_length; lia). rewrite map_length.
      replace (length r + i * length r + j - length r) with (i * length r + j) by lia. exact (IH i j a b Hi Hj).
  - intro x. unfold cross_merge. rewrite in_flat_map. split.
    + intros (a & Ha & H). apply in_map_iff in H. destruct H as (b & <- & Hb). exists a, b. auto.
    + intros (a & b & Ha & Hb & ->). exists a. split; [exact Ha|]. apply in_map. exact Hb.
Qed.
Print Assumptions C35_cross_merge.

(** a diamond: the bucket 0 and the constraint 9 are reached along two paths *)
Definition ex_left : alternative := with_scoped_constraints (merge (with_bucket 1) (with_bucket 0)) [9].
Definition ex_right : alternative := with_scoped_constraints (merge (with_bucket 2) (with_bucket 0)) [9; 8].
Example C35_diamond :
  made ex_left /\ made ex_right /\
  merge ex_left ex_right = mkAlt [1; 0; 2] [mkScoped 9 [1; 0; 2]; mkScoped 8 [2; 0]] /\
  length (cross_merge [ex_left; ex_right] [ex_right]) = 2.
Proof. repeat split; repeat constructor. Qed.
