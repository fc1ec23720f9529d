(** Property C11: pending tables are finite relations. *)

Require Import List Arith Lia.
Import ListNotations.
From Verif Require Import PendingModel PendingSpec PendingLemmas.

Theorem C11_insert (p : pending) (v r : nat) : built p ->
  (forall v' r', pair (p_insert v r p) v' r' <-> pair p v' r' \/ (v' = v /\ r' = r)) /\
  (forall v' r' k, triple (p_insert v r p) v' r' k <-> triple p v' r' k).
Proof. exact (insert_pairs p v r). Qed.
Print Assumptions C11_insert.

Theorem C11_insert_with_key (p : pending) (v r k : nat) : built p ->
  (forall v' r', pair (p_insert_with_key v r k p) v' r' <-> pair p v' r' \/ (v' = v /\ r' = r)) /\
  (forall v' r' k', triple (p_insert_with_key v r k p) v' r' k' <->
                    triple p v' r' k' \/ (v' = v /\ r' = r /\ k' = k)).
Proof. exact (key_triples p v r k). Qed.
Print Assumptions C11_insert_with_key.

Theorem C11_insert_from_iter (l : list (nat * nat * nat)) (p : pending) : built p ->
  built (p_insert_from_iter l p) /\
  (forall v r k, triple (p_insert_from_iter l p) v r k <-> triple p v r k \/ In (v, r, k) l) /\
  (forall v r, pair (p_insert_from_iter l p) v r <-> pair p v r \/ exists k, In (v, r, k) l).
Proof. exact (from_iter_spec l p). Qed.
Print Assumptions C11_insert_from_iter.

Theorem C11_annotate (p : pending) (k : nat) : built p ->
  (forall v r, pair (p_annotate k p) v r <-> pair p v r) /\
  (forall v r k', triple (p_annotate k p) v r k' <-> triple p v r k' \/ (pair p v r /\ k' = k)).
Proof. exact (annotate_triples p k). Qed.
Print Assumptions C11_annotate.

Theorem C11_merge (p q : pending) : built p -> built q ->
  (forall v r, pair (p_merge p q) v r <-> pair p v r \/ pair q v r) /\
  (forall v r k, triple (p_merge p q) v r k <-> triple p v r k \/ triple q v r k).
Proof. exact (merge_triples p q). Qed.
Print Assumptions C11_merge.

Theorem C11_merge_algebra (p q s : pending) : built p -> built q -> built s ->
  same (p_merge p q) (p_merge q p) /\
  same (p_merge (p_merge p q) s) (p_merge p (p_merge q s)) /\
  same (p_merge p p) p /\ same (p_merge p p_empty) p.
Proof. exact (merge_algebra p q s). Qed.
Print Assumptions C11_merge_algebra.

Theorem C11_contains (p : pending) (v r : nat) : built p -> (p_contains p v r = true <-> pair p v r).
Proof. exact (contains_pair p v r). Qed.
Print Assumptions C11_contains.

(** [len] counts the (value, reference) pairs, each once *)
Theorem C11_len (p : pending) : built p ->
  p_len p = length (map fst (p_iter_vr p)) /\ NoDup (map fst (p_iter_vr p)).
Proof. exact (fun B => conj (eq_trans (len_pairs p) (eq_sym (map_length _ _))) (iter_vr_NoDup p B)). Qed.
Print Assumptions C11_len.

(** iteration produces no triple twice *)
Theorem C11_iter_no_duplicates (p : pending) : built p -> NoDup (p_iter p).
Proof. exact (fun B => iter_NoDup p (built_inv p B)). Qed.
Print Assumptions C11_iter_no_duplicates.

Theorem C11_pop (p : pending) : built p ->
  (p_pop p = PopNone <-> forall v r, ~ pair p v r) /\
  (forall v r k q, p_pop p = PopSome v r k q ->
     triple p v r k /\
     (forall v' r' k', triple q v' r' k' <-> triple p v' r' k' /\ ~ (v' = v /\ r' = r /\ k' = k)) /\
     (forall v' r', pair q v' r' <->
        pair p v' r' /\ ~ (v' = v /\ r' = r /\ forall k', triple p v r k' -> k' = k))) /\
  ((forall v r, pair p v r -> exists k, triple p v r k) -> p_pop p <> PopPanic).
Proof. exact (pop_spec p). Qed.
Print Assumptions C11_pop.

(** popping a fully keyed table until it is empty terminates without a panic, after
    one pop per triple, and yields exactly the triples *)
Theorem C11_drain (p : pending) : built p -> keyed p ->
  exists l, drain (S (length (p_iter p))) p = Some l /\
            (forall v r k, In (v, r, k) l <-> triple p v r k).
Proof.
  exact (fun B K => match drain_total p B K with
                    | ex_intro _ l H => ex_intro _ l (conj H (drain_spec _ p l B H))
                    end).
Qed.
Print Assumptions C11_drain.

Example C11_hypotheses_met :
  let p := p_merge (p_insert_with_key 2 5 9 (p_insert_with_key 1 5 7 (p_insert_with_key 1 4 7 p_empty)))
                   (p_annotate 8 (p_insert 2 5 p_empty)) in
  built p /\ keyed p /\ p_len p = 3 /\ p_iter p = [(1,4,7); (1,5,7); (2,5,9); (2,5,8)].
Proof.
  cbv zeta. split; [repeat constructor|]. split; [|split; reflexivity].
  intros v r (ks & H). vm_compute in H. unfold triple.
  destruct H as [H|[H|[H|[]]]]; injection H as <- <- <-.
  - exists 7. vm_compute. tauto.
  - exists 7. vm_compute. tauto.
  - exists 9. vm_compute. tauto.
Qed.

(** a pair registered without a key is reported by [contains] and counted by [len],
    is not produced by the iteration, and makes [pop] panic *)
Theorem C11_keyless_pair_refuted : exists p, built p /\
  p_contains p 1 2 = true /\ p_len p = 1 /\ p_iter p = [] /\ p_pop p = PopPanic.
Proof. exact (ex_intro _ (p_from_pair 1 2) (conj (built_insert _ _ _ built_empty)
         (conj eq_refl (conj eq_refl (conj eq_refl eq_refl))))). Qed.
Print Assumptions C11_keyless_pair_refuted.
