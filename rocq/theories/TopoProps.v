(* The order of shapes: properties. *)
From Coq Require Import List String Bool Permutation Relation_Operators Operators_Properties Lia.
Import ListNotations.
From Verif Require Import SjModel CoModel SqSpec GenModel TopoModel TopoSpec GenGraph TopoLemmas.
Open Scope string_scope.

(* Sorting gives up exactly if there is a cycle, and else gives all nodes once, each before what it depends on. *)
Theorem C91_sorts g ord : NoDup (List.map fst g) -> (forall l, Permutation (ord l) l) ->
  (sort ord g = None <-> cyclic g) /\ forall l, sort ord g = Some l -> dependents_first g l.
Proof. intros K O. apply sort_right; assumption. Qed.
Print Assumptions C91_sorts.

(* The recursion ends: it is never deeper than there are nodes. *)
Theorem C91_ends g ord : NoDup (List.map fst g) -> (forall l, Permutation (ord l) l) -> topological_sort ord g (enough g) <> OutOfFuel.
Proof. intros K O E. pose proof (sort_goes g K ord O) as G. rewrite E in G. exact G. Qed.
Print Assumptions C91_ends.

Theorem C91_schema {L : lib} ds ord : NoDup (List.map (fun d => show_label (d_id d)) ds) -> (forall l, Permutation (ord l) l) ->
  (get_topological_order ord ds = None <-> exists a, clos_trans _ (refers ds) a a) /\
  forall l, get_topological_order ord ds = Some l -> NoDup l /\
    (forall x, In x l <-> (exists d, In d ds /\ show_label (d_id d) = x) \/ exists a, refers ds a x) /\ forall a b, refers ds a b -> before l a b.
Proof.
  intros N O. pose proof (dependencies_edges ds N) as E. destruct (sort_right (dependencies ds) (dependencies_keys ds) ord O) as [S1 S2]. split.
  - unfold get_topological_order. rewrite S1. unfold cyclic.
    assert (P : forall a b, path (dependencies ds) a b <-> clos_trans _ (refers ds) a b).
    { intros a b. rewrite clos_trans_t1n_iff. split.
      - induction 1 as [a b H|a b c H P IH]; [constructor 1|econstructor 2]; try (apply E; exact H). exact IH.
      - induction 1 as [a b H|a b c H P IH]; [constructor 1|econstructor 2]; try (apply E; exact H). exact IH. }
    split; intros (a & H); exists a; apply P; exact H.
  - intros l H. destruct (S2 l H) as (N' & A & B). split; [exact N'|]. split.
    + intro x. rewrite A. unfold a_node.
      assert (K : In x (List.map fst (dependencies ds)) <-> exists d, In d ds /\ show_label (d_id d) = x).
      { unfold dependencies. rewrite (put_all (fun d => i_id (legacy_info d)) (fun d => List.map dp_target (i_deps (legacy_info d))) ds []) by exact N. cbn [app]. rewrite map_map, in_map_iff. cbn.
        split; intros (d & I1 & I2); exists d; auto. }
      rewrite K. split; (intros [I|(a & I)]; [left; exact I|right; exists a; apply E; exact I]).
    + intros a b R. apply B, E, R.
Qed.
Print Assumptions C91_schema.

(* ------------------------------------------------------------------ *)
(* Examples and refutations                                             *)

Definition chain : graph := [("A", ["B"; "C"]); ("B", ["C"]); ("D", ["A"])].
Example C91_met : NoDup (List.map fst chain) /\ sort (fun l => l) chain = Some ["D"; "A"; "B"; "C"] /\ sort (@rev _) chain = Some ["D"; "A"; "B"; "C"].
Proof. split; [repeat constructor; cbn; intuition discriminate|split; reflexivity]. Qed.
Definition loop : graph := [("A", ["B"]); ("B", ["A"])].
Example C91_loop : NoDup (List.map fst loop) /\ cyclic loop /\ sort (fun l => l) loop = None.
Proof.
  split; [repeat constructor; cbn; intuition discriminate|]. split; [|reflexivity]. exists "A". eapply P_more; [|apply P_one]; [exists ["B"]|exists ["A"]]; cbn; auto.
Qed.

(* What is depended on comes last, so data for references cannot be made in this order. *)
Theorem C91_order_refuted : exists g l, sort (fun l => l) g = Some l /\ ~ dependencies_first g l.
Proof.
  exists [("A", ["B"])], ["A"; "B"]. split; [reflexivity|]. intros (_ & _ & F). destruct (F "A" "B") as (a & b & c & E); [exists ["B"]; cbn; auto|].
  destruct a as [|x a]; [discriminate|]. injection E as <- E. destruct a as [|y a]; [injection E as E; destruct b; discriminate|]. injection E as _ E. destruct a; discriminate.
Qed.
Print Assumptions C91_order_refuted.

#[local] Instance lib0 : lib := {| dec := unit; dbl := unit; fnum := unit; show_dec := fun _ => ""; parse_dec := fun _ => None; show_dbl := fun _ => ""; parse_dbl := fun _ => None;
  write_fnum := fun _ => JNull; read_fnum := fun _ => Err; iri_ok := fun _ => true; lang_new := fun s => Some s |}.
Definition one_decl id ve : decl :=
  {| d_type := ""; d_id := LIri (Iri id); d_abstract := false; d_expr := SShape None None (Some (TTriple None None None (Iri "p") ve None None None None)) None None None |}.
Definition to_shape id : sexpr := SRef (LIri (Iri id)).
Example C91_schema_met : NoDup (List.map (fun d => show_label (d_id d)) [one_decl "A" (Some (to_shape "B")); one_decl "B" None]) /\
  get_topological_order (fun l => l) [one_decl "A" (Some (to_shape "B")); one_decl "B" None] = Some ["A"; "B"] /\
  get_topological_order (fun l => l) [one_decl "A" (Some (to_shape "A"))] = None /\
  get_topological_order (fun l => l) [one_decl "A" (Some (to_shape "X"))] = Some ["A"; "X"].
Proof. split; [repeat constructor; cbn; intuition discriminate|repeat split]. Qed.

(* References inside conjunctions are not seen. *)
Theorem C91_nested_refuted : exists d, d_expr d = SShape None None (Some (TTriple None None None (Iri "p") (Some (SAnd [SRef (d_id d)])) None None None None)) None None None /\
  get_topological_order (fun l => l) [d] = Some [show_label (d_id d)].
Proof. exists (one_decl "A" (Some (SAnd [to_shape "A"]))). split; reflexivity. Qed.
Print Assumptions C91_nested_refuted.
(* Shapes that are not declared are ordered too. *)
Theorem C91_declared_refuted : exists d l x, get_topological_order (fun l => l) [d] = Some l /\ In x l /\ x <> show_label (d_id d).
Proof. exists (one_decl "A" (Some (to_shape "X"))), ["A"; "X"], "X". split; [reflexivity|]. split; [cbn; auto|discriminate]. Qed.
Print Assumptions C91_declared_refuted.
