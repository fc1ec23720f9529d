(** Property C18: the class-based enumeration of neighbourhood partitions. *)

Require Import List Arith Bool Permutation Lia.
Import ListNotations.
From Verif Require Import RbeModel RbeSpec PendingModel TableModel TableSpec StepModel StepSpec
  ClassModel ClassSpec ClassLemmas ClassFinal RbeProps TableProps.

(** Whatever the iteration order of the two hash maps: collecting the iterator
    terminates; the neighbours are divided into those whose predicate some bucket mentions
    and the dropped ones; every item produced sends each of the former to one bucket that
    mentions its predicate; no distribution is produced twice; and every distribution in
    which every expression can match the part of its bucket is produced. *)
Theorem C18_sound_and_complete (eval : nat -> nat -> bool) (buckets : list (list table))
    (neighs : list (nat * nat)) (classes : list class) :
  (forall b t, In t (nth b buckets []) -> tbuilt t) ->
  classes_of buckets neighs classes ->
  exists placed dropped l,
    Permutation (placed ++ dropped) neighs /\
    (forall kv b, In kv dropped -> b < length buckets -> ~ mentions buckets b (fst kv)) /\
    collected eval buckets classes (start eval buckets classes) (map (distribution placed (length buckets)) l) /\
    NoDup l /\
    (forall a, In a l -> sends_to_mentioning buckets placed a) /\
    (forall a, sends_to_mentioning buckets placed a -> accepted (can_match eval) buckets placed a -> In a l).
Proof.
  intros HB HC. apply (class_partitions_total (can_match eval) eval buckets neighs classes HB); [|exact HC].
  intros b t part rest pool Ht. apply can_match_feasible. exact (HB b t Ht).
Qed.
Print Assumptions C18_sound_and_complete.

(** The same for the distributions that the matcher accepts, including those it accepts
    by ignoring neighbours (C10_no_candidate_refuted), when its bag matcher is exact. *)
Theorem C18_matcher_accepted (eval : nat -> nat -> bool) (buckets : list (list table))
    (neighs : list (nat * nat)) (classes : list class) :
  (forall b t, In t (nth b buckets []) -> exists e, table_for t e) ->
  classes_of buckets neighs classes ->
  exists placed dropped l,
    Permutation (placed ++ dropped) neighs /\
    (forall kv b, In kv dropped -> b < length buckets -> ~ mentions buckets b (fst kv)) /\
    collected eval buckets classes (start eval buckets classes) (map (distribution placed (length buckets)) l) /\
    NoDup l /\
    (forall a, In a l -> sends_to_mentioning buckets placed a) /\
    (forall a, sends_to_mentioning buckets placed a -> accepted (matcher_accepts eval) buckets placed a -> In a l).
Proof.
  intros HT HC. apply (class_partitions_total (matcher_accepts eval) eval buckets neighs classes); [| |exact HC].
  - intros b t Ht. destruct (HT b t Ht) as (e & B & _). exact B.
  - intros b t part rest pool Ht. apply matcher_feasible. exact (HT b t Ht).
Qed.
Print Assumptions C18_matcher_accepted.

(** The items produced are determined: the enumeration has one outcome. *)
Theorem C18_deterministic (eval : nat -> nat -> bool) (buckets : list (list table)) (classes : list class)
    (s : state) (l l' : list (list (list (nat * nat)))) :
  collected eval buckets classes s l -> collected eval buckets classes s l' -> l = l'.
Proof. exact (collected_det eval buckets classes s l l'). Qed.
Print Assumptions C18_deterministic.

(** the buckets of the Rust unit test: [A = { p . ; q . ? }] and [B = { p [7] }], with
    the neighbours [p 7], [p 8], [q 9] and [z 0] *)
Definition ex_A : table :=
  with_rbe (rs_from (And [Symbol 0 (mkCard 1 (IntMax 1)); Symbol 1 (mkCard 0 (IntMax 1))]))
    (snd (add_component 1 (CSingle None) (snd (add_component 0 (CSingle None) t_new)))).
Definition ex_B : table :=
  with_rbe (rs_from (Symbol 0 (mkCard 1 (IntMax 1)))) (snd (add_component 0 (CSingle (Some 7)) t_new)).
Definition ex_neighs : list (nat * nat) := [(0, 7); (0, 8); (1, 9); (2, 0)].
Definition ex_classes : list class := [mkClass [(1, 9)] [0]; mkClass [(0, 7); (0, 8)] [0; 1]].

Example C18_hypotheses_met :
  (forall b t, In t (nth b [[ex_A]; [ex_B]] []) -> exists e, table_for t e) /\
  classes_of [[ex_A]; [ex_B]] ex_neighs ex_classes /\
  collected ex_eval [[ex_A]; [ex_B]] ex_classes (start ex_eval [[ex_A]; [ex_B]] ex_classes)
    [[[(1, 9); (0, 7)]; [(0, 8)]]; [[(1, 9); (0, 8)]; [(0, 7)]]] /\
  accepted (matcher_accepts ex_eval) [[ex_A]; [ex_B]] [(1, 9); (0, 7); (0, 8)] [0; 1; 0].
Proof.
  split; [|split; [|split]].
  - intros [|[|b]] t Ht; [| |destruct b; destruct Ht]; destruct Ht as [<-|[]].
    + exists (And [Symbol 0 (mkCard 1 (IntMax 1)); Symbol 1 (mkCard 0 (IntMax 1))]).
      split; [repeat constructor|]. split; [reflexivity|]. split; [reflexivity|].
      split; [concrete|]. split; [concrete|]. split; [concrete|]. intros _. simpl. tauto.
    + exists (Symbol 0 (mkCard 1 (IntMax 1))).
      split; [repeat constructor|]. split; [reflexivity|]. split; [reflexivity|].
      split; [concrete|]. split; [concrete|]. split; [concrete|]. intros _. simpl. tauto.
  - unfold classes_of. apply perm_swap.
  - apply (collected_item _ _ _ 20 _ (mkState [Some [1]; Some [1; 1]] 2 (Some [[0]; [0; 1]]) false)); [reflexivity|].
    apply (collected_item _ _ _ 20 _ (mkState [Some [1]; Some [1; 1]] 2 (Some [[0]; [1; 0]]) false)); [reflexivity|].
    eapply (collected_end _ _ _ 20). reflexivity.
  - intros [|[|b]] t Hb Ht; [| |simpl in Hb; lia]; destruct Ht as [<-|[]]; eexists; left; reflexivity.
Qed.
