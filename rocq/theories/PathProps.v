(** C28: SHACL property paths. *)
From Coq Require Import List Bool NArith Relations Permutation Lia Arith.
Import ListNotations.
From Verif Require Import PathModel PathSpec PathLemmas.

(** an evaluation that returns nodes returns exactly the nodes that the path relates to the start, each once *)
Theorem C28_exact_partial ord g fuel p s l : any_order ord -> simple_inverses p -> objects_for_path ord g fuel p s = Ok l ->
  NoDup l /\ forall o, In o l <-> holds g p s o.
Proof.
  intros P S H. pose proof (path_good ord P g p S fuel s) as G. rewrite H in G. destruct G as (N & G & _). split; assumption.
Qed.
Print Assumptions C28_exact_partial.

(** the loops stop on every graph, after a number of rounds that is bounded by the size of the graph *)
Theorem C28_terminates_partial ord g fuel p s : any_order ord -> simple_inverses p -> enough g <= fuel ->
  objects_for_path ord g fuel p s <> OutOfFuel.
Proof.
  intros P S L H. pose proof (path_good ord P g p S fuel s) as G. rewrite H in G. cbn [good] in G. lia.
Qed.
Print Assumptions C28_terminates_partial.

(** the evaluation succeeds exactly when it never has to follow a predicate forwards from a literal *)
Theorem C28_errors ord g fuel p s : any_order ord -> simple_inverses p -> enough g <= fuel ->
  (exists l, objects_for_path ord g fuel p s = Ok l) <-> forall x, leaves g p s x -> ~ literal x.
Proof.
  intros P S L. pose proof (path_good ord P g p S fuel s) as G. destruct (objects_for_path ord g fuel p s) as [l| | |]; cbn [good] in G.
  - destruct G as (_ & _ & F). split; [|intros _; exists l; reflexivity]. intros _ x H K. apply F. exists x. split; assumption.
  - split; [intros (l & X); discriminate|]. intro H. destruct G as (x & K1 & K2). destruct (H x K1 K2).
  - destruct G.
  - lia.
Qed.
Print Assumptions C28_errors.

(** and then the full statement holds: the result is the set of nodes the path leads to *)
Theorem C28_total ord g fuel p s : any_order ord -> simple_inverses p -> enough g <= fuel ->
  (forall x, leaves g p s x -> ~ literal x) -> exists l, objects_for_path ord g fuel p s = Ok l /\ NoDup l /\ forall o, In o l <-> holds g p s o.
Proof.
  intros P S L H. destruct (proj2 (C28_errors ord g fuel p s P S L) H) as [l E]. exists l. split; [exact E|].
  apply (C28_exact_partial ord g fuel p s l P S E).
Qed.
Print Assumptions C28_total.

(** the order in which hash sets are iterated has no influence on the set of nodes, nor on whether there is an error *)
Theorem C28_order ord ord' g fuel p s : any_order ord -> any_order ord' -> simple_inverses p -> enough g <= fuel ->
  match objects_for_path ord g fuel p s, objects_for_path ord' g fuel p s with
  | Ok l, Ok l' => Permutation l l'
  | Err, Err => True
  | _, _ => False
  end.
Proof.
  intros P P' S L. pose proof (path_good ord P g p S fuel s) as G. pose proof (path_good ord' P' g p S fuel s) as G'.
  destruct (objects_for_path ord g fuel p s) as [l| | |]; destruct (objects_for_path ord' g fuel p s) as [l'| | |]; cbn [good] in G, G'; try tauto; try lia.
  destruct G as (N & G & _). destruct G' as (N' & G' & _). apply NoDup_Permutation; [exact N|exact N'|]. intro o. rewrite G. symmetry. apply G'.
Qed.
Print Assumptions C28_order.

Definition id_ord (l : list term) : list term := l.
Lemma id_any : any_order id_ord. Proof. intro l. apply Permutation_refl. Qed.

(** a cycle of two nodes, with a literal hanging off it *)
Definition g1 : graph := [(TIri 1, 10%N, TIri 2); (TIri 2, 10%N, TIri 1); (TIri 2, 11%N, TLit 5)].
Example C28_met : simple_inverses (PStar (PPred 10)) /\ objects_for_path id_ord g1 (enough g1) (PStar (PPred 10)) (TIri 1) = Ok [TIri 2; TIri 1].
Proof. split; [exact I|reflexivity]. Qed.
Example C28_met_inverse : objects_for_path id_ord g1 (enough g1) (PSeq [PInv (PPred 11); PPlus (PPred 10)]) (TLit 5) = Ok [TIri 2; TIri 1].
Proof. reflexivity. Qed.
Example C28_met_err : objects_for_path id_ord g1 (enough g1) (PSeq [PPred 11; PPred 10]) (TIri 2) = Err.
Proof. reflexivity. Qed.

(** full statement of C28: every path gives exactly the nodes it leads to; it fails when the path goes forwards from a literal ... *)
Theorem C28_literal_refuted : exists g p s, rdf_graph g /\ simple_inverses p /\
  (exists o, holds g p s o) /\ forall ord fuel, any_order ord -> objects_for_path ord g fuel p s = Err.
Proof.
  (* two values of the first predicate, one of them a literal: the other one's value is lost too *)
  exists [(TIri 1, 10%N, TLit 5); (TIri 1, 10%N, TIri 2); (TIri 2, 11%N, TIri 3)], (PSeq [PPred 10; PPred 11]), (TIri 1).
  split; [intros s p o [H|[H|[H|[]]]]; injection H as <- <- <-; exact I|]. split; [cbn; tauto|]. split.
  - exists (TIri 3). cbn. exists (TIri 2). split; [auto|]. exists (TIri 3). auto.
  - intros ord fuel P.
    pose proof (path_good ord P [(TIri 1, 10%N, TLit 5); (TIri 1, 10%N, TIri 2); (TIri 2, 11%N, TIri 3)] (PSeq [PPred 10; PPred 11])
      ltac:(cbn; tauto) fuel (TIri 1)) as G.
    destruct (objects_for_path ord _ fuel (PSeq [PPred 10; PPred 11]) (TIri 1)) as [l| | |] eqn:X; cbn in G.
    + exfalso. destruct G as (_ & _ & F). apply F. exists (TLit 5). split; [|exact I]. cbn. right. exists (TLit 5). split; [auto|]. left. reflexivity.
    + reflexivity.
    + destruct G.
    + exfalso. clear G. cbn in X. revert X.
      assert (Q : forall all xs, gather
         (fun s => bind (objects_for [(TIri 1, 10%N, TLit 5); (TIri 1, 10%N, TIri 2); (TIri 2, 11%N, TIri 3)] s 11)
            (fun l => gather (fun s => Ok [s]) (ord l) [])) xs all <> OutOfFuel).
      { intros all ys. revert all. induction ys as [|y ys IH]; intro all; cbn [gather]; [discriminate|].
        destruct (objects_for _ y 11) eqn:O; cbn [bind]; try discriminate.
        - assert (K : forall zs a, exists r, gather (fun s => Ok [s]) zs a = Ok r).
          { induction zs as [|z zs IHz]; intro a0; [exists a0; reflexivity|]. cbn [gather bind]. apply IHz. }
          destruct (K (ord a) []) as [r ->]. cbn [bind]. apply IH.
        - unfold objects_for in O. destruct (term_as_subject y); discriminate. }
      apply Q.
Qed.
Print Assumptions C28_literal_refuted.

(** ... and the inverse of anything but a predicate panics *)
Theorem C28_inverse_refuted : exists g p s, rdf_graph g /\ (exists o, holds g p s o) /\ forall ord fuel, objects_for_path ord g fuel p s = Panic.
Proof.
  exists [(TIri 1, 10%N, TIri 2)], (PInv (PSeq [PPred 10])), (TIri 2). split; [intros s p o [H|[]]; injection H as <- <- <-; exact I|]. split.
  - exists (TIri 1). cbn. exists (TIri 2). auto.
  - reflexivity.
Qed.
Print Assumptions C28_inverse_refuted.
