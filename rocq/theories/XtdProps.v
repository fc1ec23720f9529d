(** C74, C75, C76: shapes with EXTENDS. *)
From Coq Require Import List Arith Bool Permutation Lia.
Import ListNotations.
From Verif Require Import RbeModel RbeSpec GraphModel GraphSpec PendingModel TableModel TableSpec StepModel ClassModel ExtModel EngineModel EngineSpec
  RbeProps EngineProps XtdModel XtdSpec XtdRes XtdMain XtdSingle.

(** ** C74: the ways to extend a label *)

(** The alternatives computed for a label are the ways to resolve it: the shapes are
    those of the resolution, each once, the constraints are those of the resolution, each
    once, and the scope of a constraint is made of all the scopes that the resolution
    gives to it.

    The full statement is for all schemas; here declarations do not contain themselves
    other than through triple constraints, and no disjunction is empty. *)
Theorem C74_alternatives_partial (sch : schema) (rank : nat -> nat) (i : nat) : grounded sch rank -> ors_nonempty sch ->
  let same a B K :=
    NoDup (a_buckets a) /\ NoDup (map sc_expr (a_constraints a)) /\
    (forall b, In b (a_buckets a) <-> In b B) /\
    (forall c, In c (map sc_expr (a_constraints a)) <-> In c (map fst K)) /\
    (forall x, In x (a_constraints a) -> NoDup (sc_scope x) /\ forall b, In b (sc_scope x) <-> exists S, In (sc_expr x, S) K /\ In b S) in
  (forall a, In a (extend_alternatives sch i) -> exists B K, resolves sch i B K /\ same a B K) /\
  (forall B K, resolves sch i B K -> exists a, In a (extend_alternatives sch i) /\ same a B K) /\
  extend_alternatives sch i <> [] /\
  ((exists a b, In a (extend_alternatives sch i) /\ In b (a_buckets a)) <-> bucketed sch i).
Proof.
  intros G O same. destruct (extend_alternatives_right sch rank G O i) as (A & B & C & D).
  assert (R : forall a B K, represents a B K -> same a B K).
  { intros a B0 K ((N1 & N2 & N3) & E1 & E2 & E3). split; [exact N1|]. split; [exact N2|]. split; [exact E1|]. split; [exact E2|].
    intros x X. split; [exact (N3 x X)|exact (E3 x X)]. }
  split; [|split; [|split]].
  - intros a H. destruct (A a H) as (B0 & K & H1 & H2). exists B0, K. auto.
  - intros B0 K H. destruct (B B0 K H) as (a & H1 & H2). exists a. auto.
  - exact C.
  - rewrite <- D. unfold some_bucket. rewrite existsb_exists. split.
    + intros (a & b & Ha & Hb). exists a. split; [exact Ha|]. destruct (a_buckets a); [destruct Hb|reflexivity].
    + intros (a & Ha & E). destruct (a_buckets a) as [|b l] eqn:X; [discriminate|]. exists a, b. split; [exact Ha|]. rewrite X. left. reflexivity.
Qed.
Print Assumptions C74_alternatives_partial.

(** ** C75: parents with alternatives *)

(** The check of a shape with a parent that can be extended in several ways answers as the
    arcs of the node can be shared out among the shape and the shapes of its parents; it
    ends.

    The full statement is for all schemas; here declarations do not contain themselves
    other than through triple constraints, no disjunction is empty, and what the shape
    inherits is [well_extended]. *)
Theorem C75_extends_partial (eval external : nat -> nat -> bool) (border : list (option nat * table) -> list (option nat * table))
    (corder : list class -> list class) (sch : schema) (rank : nat -> nat) (g : rdf) (T : typing) (s : shape) (l n p : nat) :
  grounded sch rank -> ors_nonempty sch -> NoDup g ->
  (forall l, Permutation (border l) l) -> (forall l, Permutation l (corder l)) ->
  well_extended sch s -> In p (s_extends s) -> two_ways sch p ->
  let check f := check_shape_extends eval external border corder sch g f l n s (fun k => T (node_of k) (label_of k)) in
  (forall f b, check f = Some b -> (b = true <-> extends_holds eval external sch g T n s)) /\
  (exists f0, forall f, f0 <= f -> exists b, check f = Some b).
Proof.
  intros G O NG HB HC W Hp TW check.
  exact (extends_right sch rank G O eval external border corder g T NG HB HC s W l n p Hp TW).
Qed.
Print Assumptions C75_extends_partial.

(** ** C76: parents that are shapes *)

(** The check of a shape all of whose ancestors are shapes accepts a node only if its arcs
    can be shared out; if no two of the shapes mention a common predicate, it accepts
    exactly these nodes; it ends.

    The full statement has no condition on the predicates, and is for all schemas in which
    each parent can be extended in one way. *)
Theorem C76_plain_partial (eval external : nat -> nat -> bool) (border : list (option nat * table) -> list (option nat * table))
    (corder : list class -> list class) (sch : schema) (g : rdf) (T : typing) (s : shape) (l n : nat) :
  NoDup g -> (forall l, Permutation (border l) l) -> (forall l, Permutation l (corder l)) ->
  inherit_ok sch -> plainly_extended sch l s ->
  let check f := check_shape_extends eval external border corder sch g f l n s (fun k => T (node_of k) (label_of k)) in
  (forall f, check f = Some true -> extends_holds eval external sch g T n s) /\
  (apart sch l -> forall f b, check f = Some b -> (b = true <-> extends_holds eval external sch g T n s)) /\
  (exists f0, forall f, f0 <= f -> exists b, check f = Some b).
Proof.
  intros NG HB HC IO P check.
  exact (plain_right eval external border corder sch g T NG HB HC IO l s P n).
Qed.
Print Assumptions C76_plain_partial.

(** ** Examples *)

Fixpoint reg (l : list (nat * mcond)) (t : table) : table :=
  match l with [] => t | (k, c) :: l => reg l (snd (add_component k c t)) end.
(** the table of [k1 c1 card1; k2 c2 card2; ...] *)
Definition tab (l : list (nat * mcond * card)) : table :=
  with_rbe (rs_from (And (map (fun ic => Symbol (fst ic) (snd (snd ic))) (combine (seq 0 (length l)) l)))) (reg (map fst l) t_new).
Definition any := CSingle None.
Definition val v := CSingle (Some v).
Definition shape_of (closed : bool) (extra ext : list nat) (l : list (nat * mcond * card)) : shape :=
  mkShape closed extra (tab l) (map (fun x => fst (fst x)) l) ext.
(** a shape with one triple constraint and the parents [ext] *)
Definition sub (closed : bool) (ext : list nat) (k : nat) (cd : mcond) : shape :=
  let s := one closed [] k cd once in mkShape closed [] (s_table s) (s_preds s) ext.
Lemma sub_exact closed ext k cd : exact_shape (sub closed ext k cd).
Proof. exact (one_exact closed [] k cd once ltac:(concrete) ltac:(concrete)). Qed.
Lemma sub_component closed ext k cd c' k' cd' : component (s_table (sub closed ext k cd)) c' k' cd' -> k' = k.
Proof. intro M. apply (one_component closed [] k cd once) in M. tauto. Qed.
(** no triple constraints *)
Definition bare (closed : bool) (ext : list nat) : shape := mkShape closed [] t_new [] ext.
(** kind 1: the nodes from 100 on; kind [k]: the node [k] *)
Definition ev (k v : nat) : bool := match k with 1 => 100 <=? v | _ => k =? v end.
Definition every (_ _ : nat) : bool := true.
Definition run sch g l n s : option bool :=
  check_shape_extends ev no_external (fun x => x) (fun x => x) sch g 40 l n s (fun k => every (node_of k) (label_of k)).

Ltac forth H := repeat (destruct H as [H|H]; [injection H as <- <-;
       match goal with |- exists p, ?k = _ /\ _ \/ _ => exists (Nat.div2 k) end; left; split; [reflexivity|cbn; tauto]|]); destruct H.
Ltac back H := cbn in H; repeat (destruct H as [H|H]; [first [discriminate H|inversion H; subst; cbn; tauto]|]); destruct H.
Ltac arcs := unfold neighbourhood; cbn [app flat_map shares nodup]; split;
  [repeat constructor; cbn; intuition discriminate
  |let k := fresh in let v := fresh in intros k v; split;
    [let H := fresh in cbn; intro H; forth H
    |let p := fresh in let H := fresh in intros (p & [[-> H]|[-> H]]); back H]].
Ltac matched cs := exists cs; split;
  [repeat (constructor; [eexists; split; [split; reflexivity|split; [vm_compute; first [reflexivity|exact Logic.I]|intros; reflexivity]]|]); constructor
  |apply C01_derivative_decides_language; [concrete|concrete|vm_compute; reflexivity]].
Ltac nothing_left := intros ? ? [].

(** *** C74 and C75 *)

(** [A {p0}], [B {p1}], [P (A OR B) AND <node kind> AND NOT [7]], [C EXTENDS @P {p2}] *)
Definition x_A := sub false [] (direct 0) any.
Definition x_B := sub false [] (direct 1) any.
Definition x_C := sub true [3] (direct 2) any.
Definition x_sch := mkSchema [(0, EShape x_A); (1, EShape x_B); (2, EOr [0; 1]); (3, EAnd [2; 4; 5]); (4, ENode (val 1)); (5, ENot 6); (6, ENode (val 7)); (8, EShape x_C)] []
  [((8, 3), tt)].
Definition x_rank (i : nat) : nat := match i with 8 => 3 | 3 => 2 | 2 | 5 => 1 | _ => 0 end.

Lemma x_find i e : find x_sch i = Some e -> i = 0 /\ e = EShape x_A \/ i = 1 /\ e = EShape x_B \/ i = 2 /\ e = EOr [0; 1] \/ i = 3 /\ e = EAnd [2; 4; 5] \/
  i = 4 /\ e = ENode (val 1) \/ i = 5 /\ e = ENot 6 \/ i = 6 /\ e = ENode (val 7) \/ i = 8 /\ e = EShape x_C.
Proof.
  unfold find. cbn [shapes x_sch assoc].
  repeat (match goal with |- context [if Nat.eqb ?a ?b then _ else _] => destruct (Nat.eqb_spec a b) as [->|_]; [intro H; injection H as <-; tauto|] end). discriminate.
Qed.
Lemma x_grounded : grounded x_sch x_rank.
Proof.
  intros i j (e & F & R). apply x_find in F. repeat (destruct F as [F|F]); destruct F as (-> & ->); cbn in R; cbn;
    repeat (destruct R as [R|R]); try solve [destruct R]; subst; cbn; lia.
Qed.
Lemma x_ors : ors_nonempty x_sch.
Proof. intros i F. apply x_find in F. repeat (destruct F as [F|F]); destruct F as (_ & F); discriminate F. Qed.

Lemma x_bucketed i : bucketed x_sch i -> i <> 4 /\ i <> 5 /\ i <> 6.
Proof.
  intro H. inversion H as [? s F|? j F|? es e F I B|? es e F I B]; subst; apply x_find in F; repeat (destruct F as [F|F]); destruct F as (-> & F); try discriminate F; lia.
Qed.
Lemma x_res0 B K : resolves x_sch 0 B K -> B = [0] /\ K = [].
Proof. intro H. inversion H as [? ? ? ? F|? s B' K' F R| | | | | | | | ]; subst; try discriminate. injection F as <-. inversion R; subst. auto. Qed.
Lemma x_res1 B K : resolves x_sch 1 B K -> B = [1] /\ K = [].
Proof. intro H. inversion H as [? ? ? ? F|? s B' K' F R| | | | | | | | ]; subst; try discriminate. injection F as <-. inversion R; subst. auto. Qed.
Lemma x_res2 B K : resolves x_sch 2 B K -> (B = [0] \/ B = [1]) /\ K = [].
Proof.
  intro H. inversion H as [ | |? es e B' K' F I R| | | | | | | ]; subst; try discriminate. injection F as <-.
  destruct I as [<-|[<-|[]]]; [apply x_res0 in R|apply x_res1 in R]; destruct R as (-> & ->); auto.
Qed.
Lemma x_stands i c : stands_for x_sch i c -> i = 4 \/ i = 5 -> c = i.
Proof.
  intros H D. inversion H as [? N|? j ? F S]; subst; [reflexivity|]. destruct D; subst; discriminate F.
Qed.
Lemma x_res3 B K : resolves x_sch 3 B K -> (B = [0] \/ B = [1]) /\ K = [(4, B); (5, B)].
Proof.
  intro H. inversion H as [ | | |? before e after cs B' K' F N BU ST R|? es cs F N ST| | | | | ]; subst; try discriminate.
  - injection F as F. destruct before as [|d before].
    + injection F as <- <-. apply x_res2 in R. destruct R as (R & ->). split; [exact R|].
      inversion ST as [|? ? ? ? S1 ST1]; subst. inversion ST1 as [|? ? ? ? S2 ST2]; subst. inversion ST2; subst.
      apply x_stands in S1; [|auto]. apply x_stands in S2; [|auto]. subst. reflexivity.
    + exfalso. injection F as <- F. apply (N 2 (or_introl eq_refl)). apply (bucketed_or _ 2 [0; 1] 0); [reflexivity|left; reflexivity|].
      apply (bucketed_shape _ 0 x_A). reflexivity.
  - exfalso. injection F as <-. apply (N 2 (or_introl eq_refl)). apply (bucketed_or _ 2 [0; 1] 0); [reflexivity|left; reflexivity|].
      apply (bucketed_shape _ 0 x_A). reflexivity.
Qed.
Lemma x_resolves x : x = 0 \/ x = 1 -> resolves x_sch 3 [x] [(4, [x]); (5, [x])].
Proof.
  intro D. apply (res_and x_sch 3 [] 2 [4; 5] [4; 5] [x] []); [reflexivity|intros d []| | |].
  - apply (bucketed_or _ 2 [0; 1] 0); [reflexivity|left; reflexivity|]. apply (bucketed_shape _ 0 x_A). reflexivity.
  - repeat constructor; intros j; discriminate.
  - apply (res_or _ 2 [0; 1] x); [reflexivity|destruct D; subst; cbn; auto|].
    destruct D; subst; [apply (res_shape x_sch 0 x_A [] [])|apply (res_shape x_sch 1 x_B [] [])]; (reflexivity || constructor).
Qed.
Lemma x_well : well_extended x_sch x_C.
Proof.
  split; [apply sub_exact|]. intros B K R. inversion R as [|? ? B1 K1 B2 K2 R1 R2]; subst. inversion R2; subst.
  apply x_res3 in R1. destruct R1 as (D & ->). rewrite !app_nil_r. split; [|split].
  - intros b t I F. destruct D; subst; destruct I as [<-|[]]; injection F as <-; apply sub_exact.
  - intros c S [H|[H|[]]]; (injection H as <- <-).
    + right. apply (tight_node _ _ 4 (val 1)). reflexivity.
    + left. split; [|left; exists 6; reflexivity]. apply (flat_not _ 5 6); [reflexivity|]. apply (flat_node _ 6 (val 7)). reflexivity.
  - intros c S S' [H|[H|[]]] [H'|[H'|[]]] b; assert (S = S') as -> by congruence; reflexivity.
Qed.
Lemma x_two_ways : two_ways x_sch 3.
Proof. exists [0], [(4, [0]); (5, [0])], [1], [(4, [1]); (5, [1])]. split; [apply x_resolves; auto|]. split; [apply x_resolves; auto|]. exists 0. cbn. split; [auto|lia]. Qed.

(** 100 has p1 and p2; 101 lacks p2; 102 has p0, p1 and p2 *)
Definition x_g : rdf := [(100, 1, 10); (100, 2, 11); (101, 0, 10); (102, 0, 10); (102, 1, 10); (102, 2, 10)].
Example C74_met : grounded x_sch x_rank /\ ors_nonempty x_sch /\ resolves x_sch 3 [0] [(4, [0]); (5, [0])] /\
  extend_alternatives x_sch 3 = [mkAlt [0] [mkScoped 4 [0]; mkScoped 5 [0]]; mkAlt [1] [mkScoped 4 [1]; mkScoped 5 [1]]].
Proof. split; [exact x_grounded|]. split; [exact x_ors|]. split; [apply x_resolves; auto|reflexivity]. Qed.
Example C75_met : grounded x_sch x_rank /\ ors_nonempty x_sch /\ NoDup x_g /\ well_extended x_sch x_C /\ In 3 (s_extends x_C) /\ two_ways x_sch 3 /\
  run x_sch x_g 8 100 x_C = Some true /\ run x_sch x_g 8 101 x_C = Some false /\ run x_sch x_g 8 102 x_C = Some false.
Proof.
  split; [exact x_grounded|]. split; [exact x_ors|]. split; [repeat constructor; cbn; intuition discriminate|]. split; [exact x_well|].
  split; [left; reflexivity|]. split; [exact x_two_ways|]. split; [|split]; vm_compute; reflexivity.
Qed.

(** The shape that is extended is not the one that the other check takes: in
    [P @V AND {p1 [1..]}] it is [V] in one place and the second conjunct in the other. *)
Definition v_V := shape_of false [] [] [(direct 0, any, once); (direct 1, any, once)].
Definition v_S := sub false [] (direct 1) (val 1).
Definition v_C := bare false [1].
Definition v_sch := mkSchema [(0, EShape v_V); (1, EAnd [2; 3]); (2, ERef 0); (3, EShape v_S); (4, EShape v_C)] [] [((4, 1), tt)].
Theorem C74_main_shape_refuted : exists sch i m b a, main_shape_constraints sch i = Some m /\ m_main m = Some b /\
  extend_alternatives sch i = [a] /\ forall j, In j (a_buckets a) -> find sch j <> Some (EShape b).
Proof.
  exists v_sch, 1, (mkMain [] (Some v_S) [ERef 0]), v_S, (mkAlt [0] [mkScoped 3 [0]]). split; [reflexivity|]. split; [reflexivity|]. split; [reflexivity|].
  intros j [<-|[]]. vm_compute. discriminate.
Qed.
Print Assumptions C74_main_shape_refuted.
(** so a node whose arcs can be shared out is rejected *)
Theorem C76_main_shape_refuted : exists sch g n l s, find sch l = Some (EShape s) /\ extends_holds ev no_external sch g every n s /\ run sch g l n s = Some false.
Proof.
  exists v_sch, [(100, 0, 10); (100, 1, 101)], 100, 4, v_C. split; [reflexivity|]. split; [|vm_compute; reflexivity].
  exists [0], [(3, [0])]. split.
  - apply (res_cons v_sch 1 [] [0] [(3, [0])] [] []); [|constructor].
    apply (res_and v_sch 1 [] 2 [3] [3] [0] []); [reflexivity|intros d []| | |].
    + apply (bucketed_ref _ 2 0); [reflexivity|]. apply (bucketed_shape _ 0 v_V). reflexivity.
    + repeat constructor. intro j. discriminate.
    + apply (res_ref v_sch 2 0); [reflexivity|]. apply (res_shape v_sch 0 v_V [] []); [reflexivity|constructor].
  - exists [], (fun _ => [(direct 0, 10); (direct 1, 101)]), []. split; [arcs|]. split; [matched (@nil nat)|]. split; [|split].
    + intros b t [<-|[]] (s & F & <-). injection F as <-. matched [0; 1].
    + nothing_left.
    + intros c S [H|[]]. injection H as <- <-. apply (con_shape _ _ _ _ _ _ _ 3 v_S); [reflexivity|reflexivity|].
      exists [(direct 1, 101)], [(direct 0, 10)]. split; [apply perm_swap|]. split; [matched [0]|].
      intros k v [H|[]]. injection H as <- <-. split; [intros (c & cd & M)|intros _ _ X; discriminate X].
      apply one_component in M. destruct M as (_ & M & _). discriminate M.
Qed.
Print Assumptions C76_main_shape_refuted.

(** *** what C75 leaves out *)

Definition plus := mkCard 1 Unbounded.

(** A restriction with EXTRA: [P (A OR B) AND EXTRA p0 {p0 [11]}] with [A {p0 .+}]. The
    node has p0 10 and p0 11; the arc that is EXTRA makes the check fail. *)
Definition e_A := shape_of false [] [] [(direct 0, any, plus)].
Definition e_R := shape_of false [direct 0] [] [(direct 0, val 11, once)].
Definition e_sch := mkSchema [(0, EShape e_A); (1, EShape x_B); (2, EOr [0; 1]); (3, EAnd [2; 4]); (4, EShape e_R); (5, EShape (bare false [3]))] [] [((5, 3), tt)].
Theorem C75_extra_refuted : exists sch g n l s, find sch l = Some (EShape s) /\ extends_holds ev no_external sch g every n s /\ run sch g l n s = Some false.
Proof.
  exists e_sch, [(100, 0, 10); (100, 0, 11)], 100, 5, (bare false [3]). split; [reflexivity|]. split; [|vm_compute; reflexivity].
  exists [0], [(4, [0])]. split.
  - apply (res_cons e_sch 3 [] [0] [(4, [0])] [] []); [|constructor].
    apply (res_and e_sch 3 [] 2 [4] [4] [0] []); [reflexivity|intros d []| | |].
    + apply (bucketed_or _ 2 [0; 1] 0); [reflexivity|left; reflexivity|]. apply (bucketed_shape _ 0 e_A). reflexivity.
    + repeat constructor. intro j. discriminate.
    + apply (res_or e_sch 2 [0; 1] 0); [reflexivity|left; reflexivity|]. apply (res_shape e_sch 0 e_A [] []); [reflexivity|constructor].
  - exists [], (fun _ => [(direct 0, 10); (direct 0, 11)]), []. split; [arcs|]. split; [matched (@nil nat)|]. split; [|split].
    + intros b t [<-|[]] (s & F & <-). injection F as <-. matched [0; 0].
    + nothing_left.
    + intros c S [H|[]]. injection H as <- <-. apply (con_shape _ _ _ _ _ _ _ 4 e_R); [reflexivity|reflexivity|].
      exists [(direct 0, 11)], [(direct 0, 10)]. split; [apply perm_swap|]. split; [matched [0]|].
      intros k v [H|[]]. injection H as <- <-. split; [|intros _ _ X; discriminate X]. intros _. split; [left; reflexivity|].
      intros [|[|c]] cd [_ M]; cbn in M; try discriminate M. injection M as <-. split; [intro X; discriminate X|intros v' r []].
Qed.
Print Assumptions C75_extra_refuted.

(** A restriction that does not mention every predicate of the shape that it restricts:
    [P (A OR B) AND {p0 [11]}] with [A {p0 .; p2 .}]. *)
Definition u_A := shape_of false [] [] [(direct 0, any, once); (direct 2, any, once)].
Definition u_R := sub false [] (direct 0) (val 11).
Definition u_sch := mkSchema [(0, EShape u_A); (1, EShape x_B); (2, EOr [0; 1]); (3, EAnd [2; 4]); (4, EShape u_R); (5, EShape (bare false [3]))] [] [((5, 3), tt)].
Theorem C75_unmentioned_refuted : exists sch g n l s, find sch l = Some (EShape s) /\ extends_holds ev no_external sch g every n s /\ run sch g l n s = Some false.
Proof.
  exists u_sch, [(100, 0, 11); (100, 2, 11)], 100, 5, (bare false [3]). split; [reflexivity|]. split; [|vm_compute; reflexivity].
  exists [0], [(4, [0])]. split.
  - apply (res_cons u_sch 3 [] [0] [(4, [0])] [] []); [|constructor].
    apply (res_and u_sch 3 [] 2 [4] [4] [0] []); [reflexivity|intros d []| | |].
    + apply (bucketed_or _ 2 [0; 1] 0); [reflexivity|left; reflexivity|]. apply (bucketed_shape _ 0 u_A). reflexivity.
    + repeat constructor. intro j. discriminate.
    + apply (res_or u_sch 2 [0; 1] 0); [reflexivity|left; reflexivity|]. apply (res_shape u_sch 0 u_A [] []); [reflexivity|constructor].
  - exists [], (fun _ => [(direct 0, 11); (direct 2, 11)]), []. split; [arcs|]. split; [matched (@nil nat)|]. split; [|split].
    + intros b t [<-|[]] (s & F & <-). injection F as <-. matched [0; 1].
    + nothing_left.
    + intros c S [H|[]]. injection H as <- <-. apply (con_shape _ _ _ _ _ _ _ 4 u_R); [reflexivity|reflexivity|].
      exists [(direct 0, 11)], [(direct 2, 11)]. split; [apply Permutation_refl|]. split; [matched [0]|].
      intros k v [H|[]]. injection H as <- <-. split; [|intros _ _ X; discriminate X]. intros (c & cd & M).
      apply one_component in M. destruct M as (_ & M & _). discriminate M.
Qed.
Print Assumptions C75_unmentioned_refuted.

(** A constraint reached through two parents: [P (A OR B) AND @R], [Q A' AND @R],
    [C EXTENDS @P EXTENDS @Q], all three of A, A' and R being [{p0 .}]. Each share
    satisfies R, but the check asks it of both together. *)
Definition r_sch := mkSchema [(0, EShape x_A); (1, EShape x_B); (2, EOr [0; 1]); (3, EAnd [2; 7]); (4, EShape x_A); (5, EAnd [4; 7]); (6, EShape x_A); (7, ERef 6);
  (8, EShape (bare false [3; 5]))] [] [((8, 3), tt); ((8, 5), tt)].
Theorem C75_shared_constraint_refuted : exists sch g n l s, find sch l = Some (EShape s) /\ extends_holds ev no_external sch g every n s /\ run sch g l n s = Some false.
Proof.
  exists r_sch, [(100, 0, 10); (100, 0, 11)], 100, 8, (bare false [3; 5]). split; [reflexivity|]. split; [|vm_compute; reflexivity].
  exists [0; 4], [(6, [0]); (6, [4])].
  assert (S6 : Forall2 (stands_for r_sch) [7] [6]).
  { constructor; [|constructor]. apply (stands_ref r_sch 7 6 6); [reflexivity|]. apply stands_here. intro j. discriminate. }
  split.
  - apply (res_cons r_sch 3 [5] [0] [(6, [0])] [4] [(6, [4])]); [|apply (res_cons r_sch 5 [] [4] [(6, [4])] [] []); [|constructor]].
    + apply (res_and r_sch 3 [] 2 [7] [6] [0] []); [reflexivity|intros d []| |exact S6|].
      * apply (bucketed_or _ 2 [0; 1] 0); [reflexivity|left; reflexivity|]. apply (bucketed_shape _ 0 x_A). reflexivity.
      * apply (res_or r_sch 2 [0; 1] 0); [reflexivity|left; reflexivity|]. apply (res_shape r_sch 0 x_A [] []); [reflexivity|constructor].
    + apply (res_and r_sch 5 [] 4 [7] [6] [4] []); [reflexivity|intros d []| |exact S6|].
      * apply (bucketed_shape _ 4 x_A). reflexivity.
      * apply (res_shape r_sch 4 x_A [] []); [reflexivity|constructor].
  - exists [], (fun b => match b with 0 => [(direct 0, 10)] | _ => [(direct 0, 11)] end), []. split; [arcs|]. split; [matched (@nil nat)|]. split; [|split].
    + intros b t [<-|[<-|[]]] (s & F & <-); injection F as <-; matched [0].
    + nothing_left.
    + intros c S [H|[H|[]]]; injection H as <- <-; (apply (con_shape _ _ _ _ _ _ _ 6 x_A); [reflexivity|reflexivity|]).
      * exists [(direct 0, 10)], []. split; [apply Permutation_refl|]. split; [matched [0]|nothing_left].
      * exists [(direct 0, 11)], []. split; [apply Permutation_refl|]. split; [matched [0]|nothing_left].
Qed.
Print Assumptions C75_shared_constraint_refuted.

(** A conjunction with a negation as constraint: [P (A OR B) AND (R AND NOT [7])] with
    [R {p0 .}]; [C EXTENDS @P {p0 [11]}]. The constraint is judged on all arcs of the
    node, those of C included. *)
Definition w_sch := mkSchema [(0, EShape x_A); (1, EShape x_B); (2, EOr [0; 1]); (3, EAnd [2; 4]); (4, EAnd [5; 6]); (5, EShape x_A); (6, ENot 7); (7, ENode (val 7));
  (8, EShape (sub false [3] (direct 0) (val 11)))] [] [((8, 3), tt)].
Theorem C75_mixed_constraint_refuted : exists sch g n l s, find sch l = Some (EShape s) /\ extends_holds ev no_external sch g every n s /\ run sch g l n s = Some false.
Proof.
  exists w_sch, [(100, 0, 10); (100, 0, 11)], 100, 8, (sub false [3] (direct 0) (val 11)). split; [reflexivity|]. split; [|vm_compute; reflexivity].
  exists [0], [(4, [0])]. split.
  - apply (res_cons w_sch 3 [] [0] [(4, [0])] [] []); [|constructor].
    apply (res_and w_sch 3 [] 2 [4] [4] [0] []); [reflexivity|intros d []| | |].
    + apply (bucketed_or _ 2 [0; 1] 0); [reflexivity|left; reflexivity|]. apply (bucketed_shape _ 0 x_A). reflexivity.
    + repeat constructor. intro j. discriminate.
    + apply (res_or w_sch 2 [0; 1] 0); [reflexivity|left; reflexivity|]. apply (res_shape w_sch 0 x_A [] []); [reflexivity|constructor].
  - exists [(direct 0, 11)], (fun _ => [(direct 0, 10)]), []. split; [arcs|]. split; [matched [0]|]. split; [|split].
    + intros b t [<-|[]] (s & F & <-). injection F as <-. matched [0].
    + nothing_left.
    + intros c S [H|[]]. injection H as <- <-. apply (con_and _ _ _ _ _ _ _ 4 [5; 6]); [reflexivity|]. intros e [<-|[<-|[]]].
      * apply (con_shape _ _ _ _ _ _ _ 5 x_A); [reflexivity|reflexivity|]. exists [(direct 0, 10)], []. split; [apply Permutation_refl|]. split; [matched [0]|nothing_left].
      * apply (con_not _ _ _ _ _ _ _ 6 7); [reflexivity|]. apply (whole_not _ _ _ _ _ _ 6 7 false); [reflexivity|].
        apply (whole_node _ _ _ _ _ _ 7 (val 7)); [reflexivity|]. split; [intro X; discriminate X|intro X; discriminate X].
Qed.
Print Assumptions C75_mixed_constraint_refuted.

(** An empty disjunction beside a parent with two alternatives: a panic, whatever the
    graph. *)
Definition n_sch := mkSchema [(0, EShape x_A); (1, EShape x_B); (2, EOr [0; 1]); (3, EOr []); (4, EShape (bare false [2; 3]))] [] [((4, 2), tt); ((4, 3), tt)].
Theorem C75_empty_disjunction_refuted : exists sch l s, find sch l = Some (EShape s) /\ grounded sch (fun i => i) /\
  forall eval external border corder g f n T, check_shape_extends eval external border corder sch g f l n s T = None.
Proof.
  exists n_sch, 4, (bare false [2; 3]). split; [reflexivity|]. split.
  - intros i j (e & F & R). unfold find in F. cbn [shapes n_sch assoc] in F.
    repeat (match type of F with context [if Nat.eqb ?a ?b then _ else _] => destruct (Nat.eqb_spec a b) as [->|_] end;
      [injection F as <-; cbn in R; repeat (destruct R as [R|R]); try solve [destruct R]; lia|]). discriminate F.
  - intros eval external border corder g [|f] n T; reflexivity.
Qed.
Print Assumptions C75_empty_disjunction_refuted.

(** The worked example of docs/src/internals/feasibility-model.md,
    examples/shex/person-extends.shex with :alice of person-Engineer.ttl: documented as
    conformant, and the arcs can be shared out. The restrictions on the roles do not
    mention the other predicates of the splits, and the check fails. *)
Definition d_P := shape_of true [] [] [(direct 0, any, once); (direct 1, CRef 1, plus)].
Definition d_role v := shape_of false [direct 1] [] [(direct 1, val v, once)].
Definition d_two ext p q := shape_of true [] ext [(direct p, any, once); (direct q, any, once)].
Definition d_E := shape_of true [] [9; 19] [(direct 12, any, once)].
Definition d_sch := mkSchema [
  (0, EShape d_P); (1, ENode (val 60)); (2, EAnd [3; 6; 7]); (3, EOr [4; 5]);
  (4, EShape (d_two [0] 2 3)); (5, EShape (d_two [0] 4 5)); (6, EShape (d_role 50)); (7, ENot 8); (8, EShape (d_role 54)); (9, ERef 2);
  (10, EAnd [11; 12]); (11, EShape (d_two [0] 6 7)); (12, EShape (d_role 51));
  (13, EAnd [14; 15]); (14, EShape (d_two [0] 8 9)); (15, EShape (d_role 52));
  (16, EAnd [17; 18]); (17, EShape (d_two [0] 10 11)); (18, EShape (d_role 53));
  (19, EOr [20; 21; 22]); (20, ERef 10); (21, ERef 13); (22, ERef 16); (23, EShape d_E)] []
  [((4, 0), tt); ((5, 0), tt); ((11, 0), tt); ((14, 0), tt); ((17, 0), tt); ((23, 9), tt); ((23, 19), tt)].
Definition d_g : rdf := [(100, 0, 60); (100, 1, 52); (100, 1, 50); (100, 2, 61); (100, 3, 62); (100, 8, 63); (100, 9, 64); (100, 12, 65)].
Definition d_part (b : nat) : list (nat * nat) :=
  match b with
  | 4 => [(direct 2, 61); (direct 3, 62)]
  | 0 => [(direct 0, 60); (direct 1, 52); (direct 1, 50)]
  | _ => [(direct 8, 63); (direct 9, 64)]
  end.
Lemma d_resolves : resolves_all d_sch [9; 19] [4; 0; 14; 0] [(6, [4; 0]); (7, [4; 0]); (15, [14; 0])].
Proof.
  apply (res_cons d_sch 9 [19] [4; 0] [(6, [4; 0]); (7, [4; 0])] [14; 0] [(15, [14; 0])]).
  - apply (res_ref d_sch 9 2); [reflexivity|]. apply (res_and d_sch 2 [] 3 [6; 7] [6; 7] [4; 0] []); [reflexivity|intros d []| | |].
    + apply (bucketed_or _ 3 [4; 5] 4); [reflexivity|left; reflexivity|]. apply (bucketed_shape _ 4 (d_two [0] 2 3)). reflexivity.
    + repeat constructor; intro j; discriminate.
    + apply (res_or d_sch 3 [4; 5] 4); [reflexivity|left; reflexivity|]. apply (res_shape d_sch 4 (d_two [0] 2 3) [0] []); [reflexivity|].
      apply (res_cons d_sch 0 [] [0] [] [] []); [|constructor]. apply (res_shape d_sch 0 d_P [] []); [reflexivity|constructor].
  - apply (res_cons d_sch 19 [] [14; 0] [(15, [14; 0])] [] []); [|constructor].
    apply (res_or d_sch 19 [20; 21; 22] 21); [reflexivity|right; left; reflexivity|]. apply (res_ref d_sch 21 13); [reflexivity|].
    apply (res_and d_sch 13 [] 14 [15] [15] [14; 0] []); [reflexivity|intros d []| | |].
    + apply (bucketed_shape _ 14 (d_two [0] 8 9)). reflexivity.
    + repeat constructor; intro j; discriminate.
    + apply (res_shape d_sch 14 (d_two [0] 8 9) [0] []); [reflexivity|].
      apply (res_cons d_sch 0 [] [0] [] [] []); [|constructor]. apply (res_shape d_sch 0 d_P [] []); [reflexivity|constructor].
Qed.
Lemma d_role_component w c k cd : component (s_table (d_role w)) c k cd -> c = 0 /\ k = direct 1 /\ cd = val w.
Proof. intros [A B]. cbn in A, B. destruct c as [|[|c]]; cbn in A, B; [|discriminate|discriminate]. injection A as <-. injection B as <-. auto. Qed.
Lemma d_rest w rest : w <> 1 -> (forall v, In (direct 1, v) rest -> v <> w) ->
  forall k v, In (k, v) rest ->
        (mentioned (s_table (d_role w)) k -> In k (s_extra (d_role w)) /\
           forall c cd, component (s_table (d_role w)) c k cd -> ~ satisfies ev cd v /\ forall v' r, ~ needs cd v v' r) /\
        (~ mentioned (s_table (d_role w)) k -> is_direct k = true -> s_closed (d_role w) = true -> In k (s_extra (d_role w))).
Proof.
  intros W N k v I. split; [|intros _ _ X; discriminate X]. intros (c & cd & M). apply d_role_component in M. destruct M as (_ & -> & _).
  split; [left; reflexivity|]. intros c' cd' M. apply d_role_component in M. destruct M as (_ & _ & ->). split; [|intros v' r []].
  cbn [satisfies val]. intro X. apply (N v I). symmetry. apply Nat.eqb_eq. destruct w as [|[|w]]; [exact X|lia|exact X].
Qed.
Lemma d_lang c cs : lang (rs_rbe (t_rbe (s_table (d_role c)))) (bag_of cs) -> In 0 cs.
Proof.
  intro L. destruct (in_dec Nat.eq_dec 0 cs) as [I|N]; [exact I|exfalso]. cbn in L. destruct L as (b1 & b2 & E & [_ L] & Z).
  specialize (E 0). unfold bag_of in E. rewrite (proj1 (count_occ_not_In Nat.eq_dec cs 0) N) in E. unfold bsum in E. unfold in_card in L. cbn in L. lia.
Qed.
Theorem C75_documented_refuted : exists sch g n l s, find sch l = Some (EShape s) /\ extends_holds ev no_external sch g every n s /\ run sch g l n s = Some false.
Proof.
  exists d_sch, d_g, 100, 23, d_E. split; [reflexivity|]. split; [|vm_compute; reflexivity].
  exists [4; 0; 14; 0], [(6, [4; 0]); (7, [4; 0]); (15, [14; 0])]. split; [exact d_resolves|].
  exists [(direct 12, 65)], d_part, []. split.
  { change (neighbourhood d_g 100 [(direct 12, 65); (direct 2, 61); (direct 3, 62); (direct 8, 63); (direct 9, 64); (direct 0, 60); (direct 1, 52); (direct 1, 50)]). arcs. }
  split; [matched [0]|]. split; [|split].
  - intros b t I (s & F & <-). destruct I as [<-|[<-|[<-|[<-|[]]]]]; injection F as <-; [matched [0; 1]|matched [0; 1; 1]|matched [0; 1]|matched [0; 1; 1]].
  - nothing_left.
  - intros c S [H|[H|[H|[]]]]; injection H as <- <-.
    + apply (con_shape _ _ _ _ _ _ _ 6 (d_role 50)); [reflexivity|reflexivity|].
      exists [(direct 1, 50)], [(direct 2, 61); (direct 3, 62); (direct 0, 60); (direct 1, 52)]. split.
      * change (Permutation ([(direct 1, 50)] ++ [(direct 2, 61); (direct 3, 62); (direct 0, 60); (direct 1, 52)]) ([(direct 2, 61); (direct 3, 62); (direct 0, 60); (direct 1, 52)] ++ [(direct 1, 50)])).
        apply Permutation_app_comm.
      * split; [matched [0]|]. apply d_rest; [lia|]. intros v I. cbn in I. intuition congruence.
    + apply (con_not _ _ _ _ _ _ _ 7 8); [reflexivity|]. apply (whole_not _ _ _ _ _ _ 7 8 false); [reflexivity|].
      apply (whole_shape _ _ _ _ _ _ 8 (d_role 54)); [reflexivity|reflexivity|]. split; [discriminate|]. intros (m & rest & cs & (_ & NB) & F2 & L & _). exfalso.
      apply d_lang in L. assert (X : exists kv, In kv m /\ arc_matches ev every (s_table (d_role 54)) kv 0).
      { clear - F2 L. induction F2 as [|kv c m cs A F2 IH]; [destruct L|]. destruct L as [->|L]; [exists kv; split; [left; reflexivity|exact A]|].
        destruct (IH L) as (kv' & I & A'). exists kv'. split; [right; exact I|exact A']. }
      destruct X as ((k & v) & I & cd & C & SA & _). apply d_role_component in C. destruct C as (_ & E & ->). cbn [fst snd] in *. subst k.
      apply Nat.eqb_eq in SA. subst v.
      destruct (proj1 (NB (direct 1) 54)) as (p & [[_ J]|[_ J]]); [apply in_app_iff; left; exact I| |]; cbn in J; intuition congruence.
    + apply (con_shape _ _ _ _ _ _ _ 15 (d_role 52)); [reflexivity|reflexivity|].
      exists [(direct 1, 52)], [(direct 8, 63); (direct 9, 64); (direct 0, 60); (direct 1, 50)]. split.
      * change (Permutation ((direct 1, 52) :: [(direct 8, 63); (direct 9, 64); (direct 0, 60)] ++ [(direct 1, 50)]) ([(direct 8, 63); (direct 9, 64); (direct 0, 60)] ++ (direct 1, 52) :: [(direct 1, 50)])).
        apply Permutation_middle.
      * split; [matched [0]|]. apply d_rest; [lia|]. intros v I. cbn in I. intuition congruence.
Qed.
Print Assumptions C75_documented_refuted.

(** *** C76 *)

(** [A {p0}], [B EXTENDS @A {p1}], [C EXTENDS @B {p2}] *)
Definition y_B := sub false [0] (direct 1) any.
Definition y_C := sub true [1] (direct 2) any.
Definition y_sch := mkSchema [(0, EShape x_A); (1, EShape y_B); (2, EShape y_C)] [] [((1, 0), tt); ((2, 1), tt)].
Lemma y_find i e : find y_sch i = Some e -> i = 0 /\ e = EShape x_A \/ i = 1 /\ e = EShape y_B \/ i = 2 /\ e = EShape y_C.
Proof.
  unfold find. cbn [shapes y_sch assoc].
  repeat (match goal with |- context [if Nat.eqb ?a ?b then _ else _] => destruct (Nat.eqb_spec a b) as [->|_]; [intro H; injection H as <-; tauto|] end). discriminate.
Qed.
Lemma y_exact i s : find y_sch i = Some (EShape s) -> exact_shape s.
Proof. intro F. apply y_find in F. destruct F as [(_ & F)|[(_ & F)|(_ & F)]]; injection F as ->; apply sub_exact. Qed.
Lemma y_inherit : inherit_ok y_sch.
Proof.
  intros i j. split.
  - intros (w & [H|[H|[]]]); injection H as <- <- <-; [exists y_B|exists y_C]; split; try reflexivity; left; reflexivity.
  - intros (s & F & I). apply y_find in F. destruct F as [(-> & F)|[(-> & F)|(-> & F)]]; injection F as ->; cbn in I; [destruct I| |];
      destruct I as [<-|[]]; exists tt; cbn; auto.
Qed.
Lemma y_plain : plainly_extended y_sch 2 y_C.
Proof.
  split; [reflexivity|]. split; [|intros j t _; apply y_exact].
  apply (plain_line_intro _ 2 y_C); [reflexivity|]. intros p [<-|P]; [|destruct P]. apply (plain_line_intro _ 1 y_B); [reflexivity|]. intros p [<-|[]].
  apply (plain_line_intro _ 0 x_A); [reflexivity|]. intros p [].
Qed.
Lemma y_apart : apart y_sch 2.
Proof.
  intros i j s t k _ _ F F' (c & cd & M) (c' & cd' & M'). apply y_find in F, F'.
  destruct F as [(-> & F)|[(-> & F)|(-> & F)]]; injection F as ->; destruct F' as [(-> & F')|[(-> & F')|(-> & F')]]; injection F' as ->; try reflexivity; exfalso;
    apply sub_component in M, M'; rewrite M in M'; discriminate M'.
Qed.
Example C76_met : inherit_ok y_sch /\ plainly_extended y_sch 2 y_C /\ apart y_sch 2 /\
  run y_sch [(100, 0, 10); (100, 1, 10); (100, 2, 10)] 2 100 y_C = Some true /\
  run y_sch [(100, 0, 10); (100, 2, 10)] 2 100 y_C = Some false /\
  run y_sch [(100, 0, 10); (100, 1, 10); (100, 2, 10); (100, 3, 10)] 2 100 y_C = Some false.
Proof. split; [exact y_inherit|]. split; [exact y_plain|]. split; [exact y_apart|]. split; [|split]; vm_compute; reflexivity. Qed.

(** Parents that mention the same predicate: [A {p0 [10, 12]}], [B {p0 [11, 12]}],
    [C EXTENDS @A EXTENDS @B {p1}], and a node with p0 11, p0 12 and p1 10. Each parent is
    asked to match all the arcs that satisfy its constraint, and B fails. *)
Definition either (k v : nat) : bool := match k with 1 => (v =? 10) || (v =? 12) | 2 => (v =? 11) || (v =? 12) | _ => true end.
Definition o_A := sub false [] (direct 0) (val 1).
Definition o_B := sub false [] (direct 0) (val 2).
Definition o_C := sub false [0; 1] (direct 1) any.
Definition o_sch := mkSchema [(0, EShape o_A); (1, EShape o_B); (2, EShape o_C)] [] [((2, 0), tt); ((2, 1), tt)].
Lemma o_find i e : find o_sch i = Some e -> i = 0 /\ e = EShape o_A \/ i = 1 /\ e = EShape o_B \/ i = 2 /\ e = EShape o_C.
Proof.
  unfold find. cbn [shapes o_sch assoc].
  repeat (match goal with |- context [if Nat.eqb ?a ?b then _ else _] => destruct (Nat.eqb_spec a b) as [->|_]; [intro H; injection H as <-; tauto|] end). discriminate.
Qed.
Theorem C76_overlap_refuted : exists eval sch g n l s, inherit_ok sch /\ plainly_extended sch l s /\ NoDup g /\ extends_holds eval no_external sch g every n s /\
  check_shape_extends eval no_external (fun x => x) (fun x => x) sch g 40 l n s (fun k => every (node_of k) (label_of k)) = Some false.
Proof.
  exists either, o_sch, [(100, 0, 11); (100, 0, 12); (100, 1, 10)], 100, 2, o_C. split; [|split; [|split; [|split; [|vm_compute; reflexivity]]]].
  - intros i j. split.
    + intros (w & [H|[H|[]]]); injection H as <- <- <-; exists o_C; split; try reflexivity; cbn; auto.
    + intros (s & F & I). apply o_find in F. destruct F as [(-> & F)|[(-> & F)|(-> & F)]]; injection F as ->; cbn in I; [destruct I|destruct I|].
      destruct I as [<-|[<-|[]]]; exists tt; cbn; auto.
  - split; [reflexivity|]. split.
    + apply (plain_line_intro _ 2 o_C); [reflexivity|]. intros p [<-|[<-|[]]]; [apply (plain_line_intro _ 0 o_A)|apply (plain_line_intro _ 1 o_B)]; try reflexivity; intros p [].
    + intros j t _ F. apply o_find in F. destruct F as [(_ & F)|[(_ & F)|(_ & F)]]; injection F as ->; apply sub_exact.
  - repeat constructor; cbn; intuition discriminate.
  - exists [0; 1], []. split.
    + apply (res_cons o_sch 0 [1] [0] [] [1] []); [apply (res_shape o_sch 0 o_A [] []); [reflexivity|constructor]|].
      apply (res_cons o_sch 1 [] [1] [] [] []); [apply (res_shape o_sch 1 o_B [] []); [reflexivity|constructor]|constructor].
    + exists [(direct 1, 10)], (fun b => match b with 0 => [(direct 0, 12)] | _ => [(direct 0, 11)] end), []. split; [arcs|]. split; [matched [0]|]. split; [|split].
      * intros b t [<-|[<-|[]]] (s & F & <-); injection F as <-; matched [0].
      * nothing_left.
      * intros c S [].
Qed.
Print Assumptions C76_overlap_refuted.

(** A parent with two names: [B @A], [C EXTENDS @A EXTENDS @B {p1}] asks for two shares
    for A. *)
Definition a_C := sub false [0; 1] (direct 1) any.
Definition a_sch := mkSchema [(0, EShape x_A); (1, ERef 0); (2, EShape a_C)] [] [((2, 0), tt); ((2, 1), tt)].
Theorem C76_alias_refuted : exists sch g n l s, find sch l = Some (EShape s) /\ extends_holds ev no_external sch g every n s /\ run sch g l n s = Some false.
Proof.
  exists a_sch, [(100, 0, 10); (100, 1, 10)], 100, 2, a_C. split; [reflexivity|]. split; [|vm_compute; reflexivity].
  assert (R0 : resolves a_sch 0 [0] []) by (apply (res_shape a_sch 0 x_A [] []); [reflexivity|constructor]).
  exists [0; 0], []. split.
  - apply (res_cons a_sch 0 [1] [0] [] [0] []); [exact R0|].
    apply (res_cons a_sch 1 [] [0] [] [] []); [apply (res_ref a_sch 1 0); [reflexivity|exact R0]|constructor].
  - exists [(direct 1, 10)], (fun _ => [(direct 0, 10)]), []. split; [change (neighbourhood [(100, 0, 10); (100, 1, 10)] 100 [(direct 1, 10); (direct 0, 10)]); arcs|].
    split; [matched [0]|]. split; [|split].
    * intros b t I (s & F & <-); destruct I as [<-|[<-|[]]]; injection F as <-; matched [0].
    * nothing_left.
    * intros c S [].
Qed.
Print Assumptions C76_alias_refuted.

(** A grandparent behind a conjunction: [G {p0}], [P (EXTENDS @G {p1}) AND <node kind>],
    [C EXTENDS @P {p2}]. The predicates of G are not looked up, so its share is empty. *)
Definition g_P := sub false [0] (direct 1) any.
Definition g_C := sub false [1] (direct 2) any.
Definition g_sch := mkSchema [(0, EShape x_A); (1, EAnd [2; 3]); (2, EShape g_P); (3, ENode (val 1)); (4, EShape g_C)] [] [((2, 0), tt); ((4, 1), tt)].
Theorem C76_grandparent_refuted : exists sch g n l s, find sch l = Some (EShape s) /\ extends_holds ev no_external sch g every n s /\ run sch g l n s = Some false.
Proof.
  exists g_sch, [(100, 0, 10); (100, 1, 10); (100, 2, 10)], 100, 4, g_C. split; [reflexivity|]. split; [|vm_compute; reflexivity].
  exists [2; 0], [(3, [2; 0])]. split.
  - apply (res_cons g_sch 1 [] [2; 0] [(3, [2; 0])] [] []); [|constructor].
    apply (res_and g_sch 1 [] 2 [3] [3] [2; 0] []); [reflexivity|intros d []| | |].
    + apply (bucketed_shape _ 2 g_P). reflexivity.
    + repeat constructor. intro j. discriminate.
    + apply (res_shape g_sch 2 g_P [0] []); [reflexivity|]. apply (res_cons g_sch 0 [] [0] [] [] []); [|constructor].
      apply (res_shape g_sch 0 x_A [] []); [reflexivity|constructor].
  - exists [(direct 2, 10)], (fun b => match b with 0 => [(direct 0, 10)] | _ => [(direct 1, 10)] end), []. split; [arcs|]. split; [matched [0]|]. split; [|split].
    * intros b t I (s & F & <-); destruct I as [<-|[<-|[]]]; injection F as <-; matched [0].
    * nothing_left.
    * intros c S [H|[]]. injection H as <- <-. apply (con_node _ _ _ _ _ _ _ 3 (val 1)); reflexivity.
Qed.
Print Assumptions C76_grandparent_refuted.

(** A negation in a parent: [P A AND NOT <node kind>], [C EXTENDS @P {p1}]. The negation
    is not checked, and nodes of the kind are accepted. *)
Definition m_C := sub false [1] (direct 1) any.
Definition m_sch := mkSchema [(0, EShape x_A); (1, EAnd [0; 2]); (2, ENot 3); (3, ENode (val 1)); (4, EShape m_C)] [] [((4, 1), tt)].
Theorem C76_negation_refuted : exists sch g n l s, find sch l = Some (EShape s) /\ ~ extends_holds ev no_external sch g every n s /\ run sch g l n s = Some true.
Proof.
  exists m_sch, [(100, 0, 10); (100, 1, 10)], 100, 4, m_C. split; [reflexivity|]. split; [|vm_compute; reflexivity].
  assert (BU : bucketed m_sch 0) by (apply (bucketed_shape _ 0 x_A); reflexivity).
  intros (B & K & R & (own & part & rest & _ & _ & _ & _ & C)).
  assert (I : exists S, In (2, S) K).
  { inversion R as [|? ? B1 K1 B2 K2 R1 R2]; subst. inversion R2; subst. rewrite app_nil_r.
    inversion R1 as [ | | |? before e after cs B' K' F N BE ST RE|? es cs F N ST| | | | | ]; subst; try discriminate.
    - injection F as F. destruct before as [|d before].
      + injection F as <- <-. inversion ST as [|? c ? cs' S1 ST1]; subst. inversion ST1; subst. exists B1. apply in_app_iff. right.
        inversion S1 as [? NR|? j ? FR]; subst; [|discriminate FR]. left. reflexivity.
      + exfalso. injection F as <- F. apply (N 0 (or_introl eq_refl)). exact BU.
    - exfalso. injection F as <-. apply (N 0 (or_introl eq_refl)). exact BU. }
  destruct I as (S & I). specialize (C 2 S I).
  inversion C as [? c F| ? s F|? j F|? es F|? j F W|? es F|? F|? F]; subst; try discriminate F.
  inversion W as [? c b FW|? s b FW|? j' b FW WW E| | | | | | | ]; subst; try discriminate.
  injection FW as <-. destruct b; [discriminate|].
  inversion WW as [? c b FN SN| | | | | | | | | ]; subst; try discriminate. injection FN as <-. discriminate (proj2 SN eq_refl).
Qed.
Print Assumptions C76_negation_refuted.
