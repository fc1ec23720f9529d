(** C77: validation of schemas with inheritance. *)
From Coq Require Import List Arith Bool Permutation Lia.
Import ListNotations.
From Verif Require Import RbeModel RbeSpec GraphModel GraphSpec GraphLemmas PendingModel TableModel TableSpec StepModel ClassModel ExtModel
  ProveModel ProveSpec ProveTotal EngineModel EngineSpec EngineShape EngineLemmas EngineFinal RbeProps EngineProps XtdModel XtdSpec XtdProps XeSpec XeLemmas XeFinal.

Section Props.
  Variable eval : nat -> nat -> bool.
  Variable external : nat -> nat -> bool.
  Variable default_pred : nat.
  Variable border : list (option nat * table) -> list (option nat * table).
  Variable corder : list class -> list class.
  Hypothesis H_border : forall l, Permutation (border l) l.
  Hypothesis H_corder : forall l, Permutation l (corder l).

  (** Validation of a schema with EXTENDS, abstract labels and negation, stratified:
      there is a stratified typing, it is a fixpoint of the definitions, and it gives the
      verdicts.

      The full statement is for all schemas; here references are conditions of their own,
      the matcher is exact on the triple expressions, and the shapes with EXTENDS are
      [decided] (C75, C76). *)
  Theorem C77_inheritance_partial (sch : schema) (g : rdf) (nodes : list nat) (check : nat -> nat -> shape -> (nat -> bool) -> bool) :
    NoDup g -> plain sch -> exact sch -> all_decided sch -> stratified_schema_below sch -> covers nodes g ->
    answers eval external border corder sch g check ->
    exists stratum V, strata_below sch stratum /\ stratified_below eval external sch g nodes stratum V /\
      (forall n l, In n nodes -> (V n l = true <-> has_label eval external sch g V n l)) /\
      forall ord fuel pending r s' n l b, orders ord -> (forall k, In k pending -> In (node_of k) nodes) ->
        engine_run eval external default_pred check sch g ord fuel pending fresh = (Some r, s') ->
        In (key n l, b) r -> b = V n l.
  Proof.
    intros NG PL EX AD SS CV AN. destruct (below_strata sch (exact_built sch EX) SS) as (str & ST).
    destruct (below_exists eval external default_pred border corder check sch g H_border H_corder NG PL EX AD AN str ST nodes CV) as (V & HV).
    exists str, V. split; [exact ST|]. split; [exact HV|]. split.
    - intros n l Nn. exact (below_fixpoint eval external default_pred border corder check sch g H_border H_corder NG PL EX AD AN str ST nodes CV V n l HV Nn).
    - intros ord fuel pending r s' n l b O NP R I.
      exact (below_right eval external default_pred border corder check sch g H_border H_corder NG PL EX AD AN str ST nodes CV V ord fuel pending r s' n l b O HV NP R I).
  Qed.

  (** Without negation the verdict is the greatest typing. *)
  Theorem C77_greatest_partial (sch : schema) (g : rdf) (check : nat -> nat -> shape -> (nat -> bool) -> bool)
      (ord : nat -> list nat -> list nat) (fuel : nat) (pending : list nat) (r : list (nat * bool)) (s' : state) (n l : nat) (b : bool) :
    NoDup g -> plain sch -> exact sch -> all_decided sch -> without_negation sch ->
    answers eval external border corder sch g check -> orders ord ->
    engine_run eval external default_pred check sch g ord fuel pending fresh = (Some r, s') -> In (key n l, b) r ->
    (b = true <-> conforms_below eval external sch g n l).
  Proof.
    intros NG PL EX AD WN AN O R I. set (nodes := n :: map node_of pending ++ graph_nodes g).
    assert (CV : covers nodes g).
    { intros s p o H. split; right; apply in_app_iff; right; unfold graph_nodes; apply in_flat_map; exists (s, p, o); (split; [exact H|]);
        [left|right; left]; reflexivity. }
    assert (ST : strata_below sch (fun _ => 0)) by (split; [split; [auto|intros i j N; destruct (WN i j N)]|auto]).
    destruct (below_exists eval external default_pred border corder check sch g H_border H_corder NG PL EX AD AN (fun _ => 0) ST nodes CV) as (V & HV).
    rewrite (below_right eval external default_pred border corder check sch g H_border H_corder NG PL EX AD AN (fun _ => 0) ST nodes CV V ord fuel pending r s' n l b O HV); [| |exact R|exact I].
    2:{ intros k K. right. apply in_app_iff. left. apply in_map. exact K. }
    assert (Nn : In n nodes) by (left; reflexivity). rewrite (HV n l Nn). split.
    - intros (T & Tn & _ & J). exists (fun m j => T m j && mem m nodes). split; [rewrite Tn; apply mem_In; exact Nn|].
      intros m j Tj. apply andb_true_iff in Tj. destruct Tj as [Tj Nm]. apply mem_In in Nm.
      apply (has_nodes eval external default_pred border corder check sch g H_border H_corder NG PL EX AD AN (fun _ => 0) ST nodes CV T m j Nm). exact (J m j Nm eq_refl Tj).
    - intros (T & Tn & J). exists T. split; [exact Tn|]. split; [intros; lia|]. intros m j _ _ Tj. exact (J m j Tj).
  Qed.

  (** The check of shapes with EXTENDS ends, and so does validation, without an error, if
      what is inherited is not cyclic and what is used is defined. *)
  Theorem C77_answers_partial (sch : schema) (g : rdf) : NoDup g -> all_decided sch ->
    exists check, answers eval external border corder sch g check /\
      (defined sch -> sound_inheritance sch -> forall ord n l, orders ord -> (exists e, find sch l = Some e) ->
       exists fuel, forall s, exists b s', engine_prove eval external default_pred check sch g ord fuel n l s = (Verdict b, s')).
  Proof.
    intros NG AD. exists (answer eval external border corder sch g H_border H_corder NG AD). split; [apply answer_answers|].
    intros DF (AC & ID & AB) ord n l O (e & F). set (check := answer eval external border corder sch g H_border H_corder NG AD).
    destruct (C12_terminates eval external default_pred check sch g ord n l O AC) as (fuel & T). exists fuel. intro s. specialize (T s).
    assert (E : fst (engine_prove eval external default_pred check sch g ord fuel n l s) <> Err).
    { unfold engine_prove. set (dep := engine_dep default_pred sch g).
      set (all := filter (fun k => negb (engine_missing sch k)) (pairs sch g [n] [l])).
      assert (CL : closed dep (engine_desc sch) all).
      { intros k j K N. apply filter_In in K. destruct K as [K M]. apply filter_In.
        split; [exact (pairs_closed default_pred sch g [n] [l] k j K N)|]. apply negb_true_iff in M. unfold engine_missing in *. destruct N as [N|N].
        - pose proof (dep_label default_pred sch g k j N) as R.
          assert (X : exists e', find sch (label_of j) = Some e').
          { revert M. induction R as [a|a b c U R IH]; intro M; [destruct (find sch a); [eauto|discriminate]|].
            apply IH. destruct (DF a b U) as (e' & E'). rewrite E'. reflexivity. }
          destruct X as (e' & ->). reflexivity.
        - apply desc_In in N. destruct N as (i & -> & NE & R). rewrite key_label. inversion R as [|a b c U R' Y Z]; subst; [destruct (NE eq_refl)|].
          destruct (ID _ _ U) as (e' & ->). reflexivity. }
      apply (prove_no_err dep (engine_missing sch) (engine_abstract sch) (engine_desc sch)
               (engine_check eval external check sch g) ord all O CL).
      - intros k K. apply filter_In in K. destruct K as [_ M]. apply negb_true_iff in M. split; [exact M|].
        intros A D. unfold engine_abstract in A. apply mem_In in A. destruct (AB _ A) as (d & N & R).
        assert (X : In (key (node_of k) d) (engine_desc sch k)) by (apply desc_In; exists d; auto). rewrite D in X. destruct X.
      - apply filter_In. split.
        + apply pairs_In. rewrite key_node, key_label. split; left; reflexivity.
        + unfold engine_missing. rewrite key_label, F. reflexivity. }
    destruct (engine_prove eval external default_pred check sch g ord fuel n l s) as [[| |b] s']; cbn [fst] in *; [congruence|congruence|].
    exists b, s'. reflexivity.
  Qed.
End Props.
Print Assumptions C77_inheritance_partial.
Print Assumptions C77_greatest_partial.
Print Assumptions C77_answers_partial.

(** [abstract Vehicle {p0}], [Car EXTENDS @Vehicle {p1 @Person}], [Person {p2 @Vehicle}],
    [Other NOT @Vehicle] *)
Definition v_vehicle := sub false [] (direct 0) any.
Definition v_car := sub false [0] (direct 1) (CRef 2).
Definition v_person := sub false [] (direct 2) (CRef 0).
Definition v_sch := mkSchema [(0, EShape v_vehicle); (1, EShape v_car); (2, EShape v_person); (3, ENot 0)] [0] [((1, 0), tt)].
(** node 0 is a car, node 1 a person *)
Definition v_g : rdf := [(0, 0, 2); (0, 1, 1); (1, 2, 0)].
Definition v_check (l n : nat) (s : shape) (t : nat -> bool) : bool :=
  match check_shape_extends ev no_external (fun x => x) (fun x => x) v_sch v_g 40 l n s t with Some b => b | None => false end.
Lemma v_find i e : find v_sch i = Some e -> i = 0 /\ e = EShape v_vehicle \/ i = 1 /\ e = EShape v_car \/ i = 2 /\ e = EShape v_person \/ i = 3 /\ e = ENot 0.
Proof.
  unfold find. cbn [shapes v_sch assoc].
  repeat (match goal with |- context [if Nat.eqb ?a ?b then _ else _] => destruct (Nat.eqb_spec a b) as [->|_]; [intro H; injection H as <-; tauto|] end). discriminate.
Qed.
Lemma v_shape i s : find v_sch i = Some (EShape s) -> i = 0 /\ s = v_vehicle \/ i = 1 /\ s = v_car \/ i = 2 /\ s = v_person.
Proof. intro F. apply v_find in F. destruct F as [(-> & F)|[(-> & F)|[(-> & F)|(-> & F)]]]; try discriminate; injection F as ->; tauto. Qed.
Lemma v_inherit : inherit_ok v_sch.
Proof.
  intros i j. split.
  - intros (w & [H|[]]); injection H as <- <- <-. exists v_car. split; [reflexivity|left; reflexivity].
  - intros (s & F & I). apply v_shape in F. destruct F as [(-> & ->)|[(-> & ->)|(-> & ->)]]; cbn in I; [destruct I| |destruct I].
    destruct I as [<-|[]]. exists tt. left. reflexivity.
Qed.
Lemma v_line i : reach (line_edge v_sch) 1 i -> i = 0 \/ i = 1.
Proof.
  intro R. assert (G : forall a b, reach (line_edge v_sch) a b -> a = 0 \/ a = 1 -> b = 0 \/ b = 1); [|apply (G 1 i R); right; reflexivity].
  clear. induction 1 as [a|a b c (s & F & I) R IH]; [auto|]. intro A. apply IH. left.
  apply v_shape in F. destruct F as [(-> & ->)|[(-> & ->)|(-> & ->)]]; cbn in I; [destruct I| |destruct I]. destruct I as [<-|[]]. reflexivity.
Qed.
Lemma v_decided : all_decided v_sch.
Proof.
  intros l s F X. apply v_shape in F. destruct F as [(-> & ->)|[(-> & ->)|(-> & ->)]]; cbn in X; [destruct (X eq_refl)| |destruct (X eq_refl)].
  right. split; [exact v_inherit|]. split; [split; [reflexivity|split]|].
  - apply (plain_line_intro _ 1 v_car); [reflexivity|]. intros p [<-|[]]. apply (plain_line_intro _ 0 v_vehicle); [reflexivity|]. intros p [].
  - intros j t _ F. apply v_shape in F. destruct F as [(_ & ->)|[(_ & ->)|(_ & ->)]]; apply sub_exact.
  - intros i j s t k Ri Rj Fi Fj (c & cd & M) (c' & cd' & M'). apply v_line in Ri, Rj. apply v_shape in Fi, Fj.
    destruct Fi as [(-> & ->)|[(-> & ->)|(-> & ->)]], Fj as [(-> & ->)|[(-> & ->)|(-> & ->)]]; try reflexivity; try lia;
      apply sub_component in M; apply sub_component in M'; subst k; discriminate M'.
Qed.
Lemma v_uses i j : label_uses v_sch i j -> i = 1 /\ j = 0 \/ i = 1 /\ j = 2 \/ i = 2 /\ j = 0 \/ i = 3 /\ j = 0.
Proof.
  intros (e & F & H). apply v_find in F.
  destruct F as [(-> & ->)|[(-> & ->)|[(-> & ->)|(-> & ->)]]]; try (destruct H as [H|(c & k & cd & v & v' & C & N)]; [cbn in H|]); try (destruct H as [<-|[]]; tauto); try destruct H;
    try (apply (one_component false [] _ _ once) in C; destruct C as (_ & _ & ->); cbn in N); try tauto; destruct N as [_ ->]; tauto.
Qed.
Lemma v_answers : answers ev no_external (fun x => x) (fun x => x) v_sch v_g v_check.
Proof.
  intros l n s T F X. exists 40. unfold v_check.
  assert (S : is_some (check_shape_extends ev no_external (fun x => x) (fun x => x) v_sch v_g 40 l n s T) = true).
  { apply v_shape in F. destruct F as [(-> & ->)|[(-> & ->)|(-> & ->)]]; cbn in X; [destruct (X eq_refl)| |destruct (X eq_refl)].
    destruct n as [|[|[|n]]]; vm_compute; reflexivity. }
  destruct (check_shape_extends ev no_external (fun x => x) (fun x => x) v_sch v_g 40 l n s T); [reflexivity|discriminate].
Qed.
Example C77_met : NoDup v_g /\ plain v_sch /\ exact v_sch /\ all_decided v_sch /\ stratified_schema_below v_sch /\ covers [0; 1; 2] v_g /\
  defined v_sch /\ sound_inheritance v_sch /\ answers ev no_external (fun x => x) (fun x => x) v_sch v_g v_check /\
  fst (engine_run ev no_external 0 v_check v_sch v_g id_ord 10 [key 0 0; key 1 2; key 0 1; key 1 0; key 0 3; key 1 3] fresh) =
    Some [(key 0 0, true); (key 1 2, true); (key 0 1, true); (key 1 0, false); (key 0 3, false); (key 1 3, true)].
Proof.
  split; [repeat constructor; cbn; intuition discriminate|]. split; [|split; [|split; [exact v_decided|split; [|split; [|split; [|split; [|split; [exact v_answers|]]]]]]]].
  - intros i s F c k cd C. apply v_shape in F. destruct F as [(_ & ->)|[(_ & ->)|(_ & ->)]]; apply (one_component false [] _ _ once) in C; destruct C as (_ & _ & ->); exact Logic.I.
  - intros i s F. apply v_shape in F. destruct F as [(_ & ->)|[(_ & ->)|(_ & ->)]]; apply sub_exact.
  - intros (i & j & N & _ & R). apply v_find in N. destruct N as [(_ & N)|[(_ & N)|[(_ & N)|(-> & N)]]]; try discriminate. injection N as ->.
    assert (G : forall a b, reach (uses_below v_sch) a b -> a < 3 -> b < 3).
    { clear. induction 1 as [a|a b c U R IH]; [auto|]. intro L. apply IH. destruct U as [U|(w & [U|[]])].
      - apply v_uses in U. lia.
      - injection U as <- <- <-. lia. }
    specialize (G _ _ R). lia.
  - intros s p o H. cbn in H. destruct H as [H|[H|[H|[]]]]; injection H as <- <- <-; cbn; tauto.
  - intros i j U. apply v_uses in U. destruct U as [(_ & ->)|[(_ & ->)|[(_ & ->)|(_ & ->)]]]; eexists; reflexivity.
  - split; [|split].
    + intros a (c & (w & E) & R). destruct E as [E|[]]. injection E as <- <- <-. inversion R as [|x y z (w & [E|[]]) R']; subst. discriminate E.
    + intros i j (w & [E|[]]). injection E as <- <- <-. eexists. reflexivity.
    + intros l [<-|[]]. exists 1. split; [discriminate|]. apply reach_one. exists tt. left. reflexivity.
  - vm_compute. reflexivity.
Qed.

(** The descendants of a label are shapes, not declarations: of
    [C EXTENDS @P {p1} AND <node kind>] only the first conjunct is below P. A node that is
    not a C, nor anything else below the abstract P, is accepted as a P. *)
Definition w_P := sub false [] (direct 0) any.
Definition w_E := sub false [0] (direct 1) any.
Definition w_sch := mkSchema [(0, EShape w_P); (1, EAnd [2; 3]); (2, EShape w_E); (3, ENode (val 1))] [0] [((2, 0), tt)].
Definition w_g : rdf := [(5, 0, 2); (5, 1, 2)].
Definition w_check (l n : nat) (s : shape) (t : nat -> bool) : bool :=
  match check_shape_extends ev no_external (fun x => x) (fun x => x) w_sch w_g 40 l n s t with Some b => b | None => false end.
Theorem C77_declaration_refuted : exists sch g check n p c, In p (abstract sch) /\ find sch c = Some (EAnd [2; 3]) /\
  (forall d, descendant sch d p <-> d = 2) /\
  fst (engine_run ev no_external 0 check sch g id_ord 10 [key n c; key n p] fresh) = Some [(key n c, false); (key n p, true)] /\
  forall s T, find sch 2 = Some (EShape s) -> check_shape_extends ev no_external (fun x => x) (fun x => x) sch g 40 2 n s T = Some (check 2 n s T).
Proof.
  exists w_sch, w_g, w_check, 5, 0, 1. split; [left; reflexivity|]. split; [reflexivity|]. split; [|split; [vm_compute; reflexivity|]].
  - intro d. split.
    + intros [N R]. inversion R as [|a b c (w & [E|[]]) R']; subst; [destruct (N eq_refl)|]. injection E as <- <- <-. reflexivity.
    + intros ->. split; [discriminate|]. apply reach_one. exists tt. left. reflexivity.
  - intros s T F. injection F as <-. unfold w_check.
    assert (S : is_some (check_shape_extends ev no_external (fun x => x) (fun x => x) w_sch w_g 40 2 5 w_E T) = true) by (vm_compute; reflexivity).
    destruct (check_shape_extends ev no_external (fun x => x) (fun x => x) w_sch w_g 40 2 5 w_E T); [reflexivity|discriminate].
Qed.
Print Assumptions C77_declaration_refuted.
