(** Properties C17 and C19: the enumerations used to partition a neighbourhood. *)

Require Import List Arith Bool Permutation Sorted Lia.
Import ListNotations.
From Verif Require Import StepModel StepSpec StepLemmas.

(** ** C17 *)

(** Collecting the iterator terminates and yields, each exactly once, all the ways of
    sending the items to the buckets for which every bucket passes its filter; the items
    considered are those that some filter accepts on their own. *)
Theorem C17_exhaustive {T} (predicates : list (list T -> bool)) (items : list T) :
  exists fuel l,
  let placed := kp_items predicates items in
  let k := length predicates in
  (forall g, fuel <= g -> k_partitions g predicates items = Some (map (distribution placed k) l)) /\
  NoDup l /\
  forall a, In a l <-> sends (length placed) k a /\ respects predicates (distribution placed k a).
Proof. exact (k_partitions_all predicates items). Qed.
Print Assumptions C17_exhaustive.

Theorem C17_placed_items {T} (predicates : list (list T -> bool)) (items : list T) (x : T) :
  In x (kp_items predicates items) <-> In x items /\ exists p, In p predicates /\ p [x] = true.
Proof. exact (kp_items_in predicates items x). Qed.
Print Assumptions C17_placed_items.

(** four items, one of which no bucket takes; the first bucket takes 1, 2 and the
    second takes 2, 3 *)
Definition ex_buckets : list (list nat -> bool) :=
  [forallb (fun x => x <=? 2); forallb (fun x => (2 <=? x) && (x <=? 3))].
Example C17_computed :
  k_partitions 20 ex_buckets [1; 2; 3; 9; 2] =
    Some [[[1; 2; 2]; [3]]; [[1; 2]; [2; 3]]; [[1; 2]; [3; 2]]; [[1]; [2; 3; 2]]] /\
  distribution (kp_items ex_buckets [1; 2; 3; 9; 2]) 2 [0; 1; 1; 0] = [[1; 2]; [2; 3]].
Proof. split; reflexivity. Qed.
(** no bucket at all: the single partition into no part *)
Example C17_no_bucket : k_partitions 2 [] [1; 2] = Some [[]].
Proof. reflexivity. Qed.

(** A filter that needs two items together shows why items are judged one by one: the
    partition into the single bucket [1; 2] is not produced although it passes. *)
Theorem C17_joint_filter_refuted : exists (predicates : list (list nat -> bool)) (items : list nat) (a : list nat),
  sends (length items) (length predicates) a /\ respects predicates (distribution items (length predicates) a) /\
  forall fuel l, k_partitions fuel predicates items = Some l -> ~ In (distribution items (length predicates) a) l.
Proof.
  exists [fun s => length s =? 2], [1; 2], [0; 0]. split; [|split].
  - split; [reflexivity|]. intros j [<-|[<-|[]]]; auto.
  - repeat constructor.
  - intros fuel l H I1. destruct (k_partitions_all [fun s : list nat => length s =? 2] [1; 2]) as (f & l' & C & _ & M).
    assert (E : l = map (distribution [] 1) l').
    { assert (G : k_partitions (Nat.max f fuel) [fun s => length s =? 2] [1; 2] = Some l).
      { eapply kp_collect_le; [apply Nat.le_max_r|exact H]. }
      rewrite (C _ (Nat.le_max_l _ _)) in G. injection G as <-. reflexivity. }
    rewrite E in I1. apply in_map_iff in I1. destruct I1 as (a & D & I1). destruct a; discriminate.
Qed.
Print Assumptions C17_joint_filter_refuted.

(** ** C19 *)

(** From the increasing arrangement, stepping visits every arrangement of the multiset
    exactly once, in increasing order, and then stops. *)
Theorem C19_permutations (a : list nat) : ascending a ->
  exists l, visits a l /\ StronglySorted lex l /\ NoDup l /\ forall c, In c l <-> Permutation a c.
Proof.
  intro A. destruct (visits_from a) as (l & V & _). exists l. split; [exact V|]. exact (visits_all a l A V).
Qed.
Print Assumptions C19_permutations.

(** One step gives the next arrangement in the order. *)
Theorem C19_permutation_successor (a b : list nat) : next_permutation a = Next b ->
  Permutation a b /\ lex a b /\ forall c, Permutation a c -> lex a c -> b = c \/ lex b c.
Proof. intro E. pose proof (next_permutation_spec a) as S. rewrite E in S. exact S. Qed.
Print Assumptions C19_permutation_successor.

(** The downward search for the pivot never runs off the array. *)
Theorem C19_permutation_no_panic (a : list nat) : next_permutation a <> Panic.
Proof. exact (next_permutation_no_panic a). Qed.
Print Assumptions C19_permutation_no_panic.

(** From the first composition, stepping visits every composition of [n] into [e] parts
    exactly once, in decreasing order, and then stops. *)
Theorem C19_compositions (n e : nat) : 0 < e ->
  exists l, comp_visits (first_composition n e) l /\ StronglySorted (fun c d => lex d c) l /\ NoDup l /\
    forall c, In c l <-> length c = e /\ list_sum c = n.
Proof.
  intro P. assert (NE : first_composition n e <> []).
  { intro K. destruct (first_composition_sum n e P) as [E _]. rewrite K in E. simpl in E. lia. }
  destruct (comp_visits_from _ NE) as (l & V & _). exists l. split; [exact V|]. exact (comp_visits_all n e l P V).
Qed.
Print Assumptions C19_compositions.

Example C19_computed :
  ascending [1; 1; 2] /\ visits [1; 1; 2] [[1; 1; 2]; [1; 2; 1]; [2; 1; 1]] /\
  comp_visits (first_composition 2 3) [[2; 0; 0]; [1; 1; 0]; [1; 0; 1]; [0; 2; 0]; [0; 1; 1]; [0; 0; 2]].
Proof.
  split; [repeat constructor|]. split.
  - repeat (eapply visits_next; [reflexivity|]). apply visits_last. reflexivity.
  - repeat (eapply comp_visits_next; [reflexivity|]). apply comp_visits_last. reflexivity.
Qed.
