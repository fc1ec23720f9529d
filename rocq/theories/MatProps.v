(** The graph materialised from a schema conforms to it (C78). *)
From Coq Require Import List Arith Bool ZArith Lia Permutation.
Import ListNotations.
From Verif Require Import EngineModel EngineSpec EngineProps ProveModel ProveSpec CompModel CompSpec CompSchema CompProps MatModel MatSpec MatLemmas MatFinal.

Section Props.
  Variable eval : nat -> nat -> bool.
  Variable ext : nat -> bool.
  Variable bnode : nat -> nat.
  Variable can_be_subject : nat -> bool.
  Variable key values : nat -> option nat.
  Variable sch : aschema.
  Notation materialize := (materialize bnode can_be_subject key values sch).

  (** The root of a materialised graph has the shape to start from.  The full statement has no condition on the schema
      and the map: it is refuted below. *)
  Theorem C78_conforms_partial (fuel : nat) (initial : option nat) (n : nat) (g : rdf) (l : nat) :
    materialize fuel initial = Ok (n, g) -> (forall i j, bnode i = bnode j -> i = j) -> (forall k, initial <> Some (bnode k)) ->
    fillable_schema eval ext key values sch -> start_label sch l -> has_shape eval ext g [] sch n l.
  Proof. intros E FB NI FS SL. exact (materialize_right eval ext bnode key values sch FB FS can_be_subject fuel initial n g l E NI SL). Qed.

  (** Without recursion a graph is made. *)
  Theorem C78_ends_partial (initial : option nat) : all_declared sch -> without_recursion sch -> has_start sch ->
    (forall n, initial = Some n -> can_be_subject n = true) -> exists fuel n g, materialize fuel initial = Ok (n, g).
  Proof.
    intros AD WR HS CS. assert (X : exists e, find_start sch = Ok e).
    { unfold find_start. destruct HS as [H|H]; [destruct (a_start sch); [eauto|congruence]|].
      destruct (a_start sch); [eauto|]. destruct (a_shapes sch); [congruence|eauto]. }
    destruct X as (e & E). destruct (start_ends bnode key values sch e AD WR E) as (f & F).
    exists f. unfold MatModel.materialize. destruct initial as [n|].
    - rewrite (CS n eq_refl). cbn [bind]. rewrite E. cbn [bind]. destruct (F n (mkMat 0 [])) as (m' & G). rewrite G. cbn. eauto.
    - cbn. rewrite E. cbn [bind]. destruct (F (bnode 1) (mkMat 1 [])) as (m' & G). rewrite G. cbn. eauto.
  Qed.

  (** More fuel makes the same graph. *)
  Theorem C78_determined (fuel fuel' : nat) (initial : option nat) (r r' : nat * rdf) :
    materialize fuel initial = Ok r -> materialize fuel' initial = Ok r' -> r = r'.
  Proof.
    assert (X : forall f f', f <= f' -> forall r, materialize f initial = Ok r -> materialize f' initial = Ok r).
    { intros f f' L [n g]. unfold MatModel.materialize.
      destruct (match initial with Some n => if can_be_subject n then Ok (n, mkMat 0 []) else Err | None => let (b, m) := add_bnode bnode (mkMat 0 []) in Ok (b, m) end) as [[n0 m]| |]; cbn [bind]; try discriminate.
      destruct (find_start sch) as [e| |]; cbn [bind]; try discriminate.
      destruct (gen_se bnode key values sch f e n0 m) as [m'| |] eqn:G; cbn [bind]; try discriminate.
      rewrite (gen_se_mono bnode key values sch f f' e n0 m m' L G). auto. }
    intros A B. destruct (Nat.le_ge_cases fuel fuel') as [L|L].
    - apply (X _ _ L) in A. congruence.
    - apply (X _ _ L) in B. congruence.
  Qed.

  (** For every schema: nothing is written but arcs from the root and new blank nodes to new blank nodes and values of
      the map; no triple is written twice. *)
  Theorem C78_provenance (fuel : nat) (initial : option nat) (n : nat) (g : rdf) : materialize fuel initial = Ok (n, g) ->
    (forall r, initial = Some r -> n = r) /\ NoDup g /\
    forall s p o, In (s, p, o) g -> (s = n \/ exists k, s = bnode k) /\ ((exists k, o = bnode k) \/ exists x, values x = Some o).
  Proof.
    intro E.
    assert (X : exists m e m', m_graph m = [] /\ (forall r, initial = Some r -> n = r) /\ gen_se bnode key values sch fuel e n m = Ok m' /\ g = m_graph m').
    { unfold MatModel.materialize in E. destruct initial as [n0|]; cbn in E.
      - destruct (can_be_subject n0); cbn in E; [|discriminate]. destruct (find_start sch) as [e| |]; cbn in E; try discriminate.
        destruct (gen_se bnode key values sch fuel e n0 (mkMat 0 [])) as [m'| |] eqn:G; cbn in E; try discriminate. injection E as <- <-.
        exists (mkMat 0 []), e, m'. split; [reflexivity|]. split; [congruence|auto].
      - destruct (find_start sch) as [e| |]; cbn in E; try discriminate.
        destruct (gen_se bnode key values sch fuel e (bnode 1) (mkMat 1 [])) as [m'| |] eqn:G; cbn in E; try discriminate. injection E as <- <-.
        exists (mkMat 1 []), e, m'. split; [reflexivity|]. split; [congruence|auto]. }
    destruct X as (m & e & m' & GM & I & G & ->). split; [exact I|]. split.
    - apply (proj1 (gen_NoDup bnode key values sch fuel) e n m m' G). rewrite GM. constructor.
    - set (P := fun m : mat => forall s p o, In (s, p, o) (m_graph m) -> (s = n \/ exists k, s = bnode k) /\ ((exists k, o = bnode k) \/ exists x, values x = Some o)).
      assert (new : forall s p k c m, P m -> (s = n \/ exists k, s = bnode k) -> P (add_triple s p (bnode k) (mkMat c (m_graph m)))).
      { intros s p k c m1 H S t q o J. apply in_add_triple in J. destruct J as [J|J]; [injection J as -> _ ->; eauto|exact (H t q o J)]. }
      enough (Y : forall f, (forall e x m m', gen_se bnode key values sch f e x m = Ok m' -> (x = n \/ exists k, x = bnode k) -> P m -> P m') /\
                            (forall e x m m', gen_te bnode key values sch f e x m = Ok m' -> (x = n \/ exists k, x = bnode k) -> P m -> P m')).
      { apply (proj1 (Y fuel) e n m m' G); [auto|]. intros s p o J. rewrite GM in J. destruct J. }
      clear - new. induction f as [|f [IHs IHt]]; [split; cbn; discriminate|]. split.
      + intros [l|l|e|ps|closed extra [te|] extends| |r] x m m' E S H; cbn in E; try (injection E as <-; exact H).
        * exact (IHt te x m m' E S H).
        * destruct (find_label sch r) as [e'| |]; cbn in E; try discriminate. exact (IHs e' x m m' E S H).
      + intros [id l mn mx acts|id l mn mx acts|id inv p value mn mx acts|r] x m m' E S H; cbn in E.
        * revert E H. apply (loop_keeps P). intros e m1 m2 E. exact (IHt e x m1 m2 E S).
        * revert E H. apply (loop_keeps P). intros e m1 m2 E. exact (IHt e x m1 m2 E S).
        * assert (A : P (apply_map key values acts x p m)).
          { intros s q o J. apply apply_map_in in J. destruct J as [J|(v & J & (a & y & _ & _ & V))]; [exact (H s q o J)|]. injection J as -> _ ->. eauto. }
          destruct value as [[l|l|e|ps|closed extra te extends| |r]|]; try (injection E as <-; exact A).
          -- refine (IHs _ _ _ _ E _ _); [eauto|]. apply new; assumption.
          -- destruct (find_label sch r) as [e'| |]; cbn in E; try discriminate. refine (IHs _ _ _ _ E _ _); [eauto|]. apply new; assumption.
        * injection E as <-. exact H.
  Qed.

  (** The engine accepts the root of a materialised graph. *)
  Theorem C78_accepted_partial (known : nat -> bool) (cfuel fuel : nat) (initial : option nat) (n : nat) (g : rdf) (l i : nat) (s : ir)
      (default_pred : nat) (check_extends : nat -> nat -> EngineModel.shape -> (nat -> bool) -> bool)
      (ord : nat -> list nat -> list nat) (steps : nat) (pending : list nat) (r : list (nat * bool)) (st : ProveModel.state) (b : bool) :
    materialize fuel initial = Ok (n, g) -> (forall i j, bnode i = bnode j -> i = j) -> (forall k, initial <> Some (bnode k)) ->
    fillable_schema eval ext key values sch -> start_label sch l ->
    compile_ir known cfuel [] sch = Ok s -> consistent [] sch -> unambiguous [] sch -> all_in_fragment [] sch ->
    orders ord -> index_of s l i ->
    engine_run eval (fun n _ => ext n) default_pred check_extends (compiled s) g ord steps pending fresh = (Some r, st) -> In (EngineModel.key n i, b) r ->
    b = true.
  Proof.
    intros E FB NI FS SL C CO U AF O H R I.
    apply (C67_validates_partial known cfuel [] sch s eval ext g default_pred check_extends ord steps pending r st n l i b C CO U AF O (proj1 (proj2 (C78_provenance _ _ _ _ E))) H R I).
    exact (C78_conforms_partial fuel initial n g l E FB NI FS SL).
  Qed.
End Props.
Print Assumptions C78_conforms_partial.
Print Assumptions C78_ends_partial.
Print Assumptions C78_determined.
Print Assumptions C78_provenance.
Print Assumptions C78_accepted_partial.

(** ** An example *)

(** [<1> CLOSED { :1 [condition 7] %20% ; ( :2 . %21% | :3 . %22% ) ; :4 @<2> ; :6 . ? %23% }], [<2> { :5 {} }], where the map
    has values for 20 and 22 *)
Definition leaf_tc (p : nat) (v : option ase) (a : nat) : ate := ATc None None p v None None [a].
Definition mat_schema : aschema :=
  mkAschema None
    [mkDecl 1 (AShape (Some true) None (Some (AEach None
       [leaf_tc 1 (Some (ANode [POne 7])) 20; AOne None [leaf_tc 2 None 21; leaf_tc 3 None 22] None None [];
        ATc None None 4 (Some (ARef 2)) None None []; ATc None None 6 None (Some 0%Z) (Some 1%Z) [23]] None None [])) []) false;
     mkDecl 2 (AShape None None (Some (ATc None None 5 (Some (AShape None None None [])) None None [])) []) false].
Definition mat_bnode (k : nat) : nat := 100 + k.
Definition mat_values (x : nat) : option nat := match x with 20 => Some 10 | 22 => Some 12 | _ => None end.
Definition mat_eval (k v : nat) : bool := if Nat.eqb k 7 then Nat.eqb v 10 else true.
Definition no_ext (n : nat) : bool := false.
Definition mat_ir : ir := Eval vm_compute in match compile_ir all_known 9 [] mat_schema with Ok s => s | _ => ir_new end.
Definition mat_result : rdf := [(101, 1, 10); (101, 3, 12); (101, 4, 102); (102, 5, 103)].

Lemma mat_offered a v : offered Some mat_values [a] v <-> mat_values a = Some v.
Proof.
  split; [intros (b & x & [<-|[]] & K & V); congruence|]. intro V. exists a, a. split; [left; reflexivity|auto].
Qed.
Lemma mat_declared l e : declared [] mat_schema l e -> (l = 1 /\ e = d_expr (hd (mkDecl 0 AExternal false) (a_shapes mat_schema))) \/
  (l = 2 /\ e = AShape None None (Some (ATc None None 5 (Some (AShape None None None [])) None None [])) []).
Proof.
  intros [(a & d & [<-|[]] & I & <- & <-)|[_ H]]; [|discriminate]. cbn in I. destruct I as [<-|[<-|[]]]; auto.
Qed.
Lemma mat_fillable : fillable_schema mat_eval no_ext Some mat_values mat_schema.
Proof.
  assert (once : once_allowed None None) by (split; cbn; lia).
  intros l e D. apply mat_declared in D. destruct D as [[_ ->]|[_ ->]].
  - split; [cbn; auto|]. cbn [fillable d_expr hd a_shapes mat_schema]. split; [cbn; repeat constructor; cbn; intuition discriminate|].
    cbn [fillable_te leaf_tc]. split; [exact once|]. split; [|split; [|split; [|split; [|exact Logic.I]]]].
    + split; [discriminate|]. split; [|intro N; destruct (N Logic.I)]. intros _. split.
      * exists [10]. split; [repeat constructor; intros []|]. split; [|cbn; lia]. intro v. rewrite mat_offered. cbn. split; [intros [<-|[]]; reflexivity|intro H; injection H as <-; auto].
      * intros v O. apply mat_offered in O. injection O as <-. split; [|intros a [<-|[]]; reflexivity].
        intros g T. cbn. intros p k [<-|[]] [<-|[]]. reflexivity.
    + split; [exact once|]. right. split; [split; [exact Logic.I|]; intros v O; apply mat_offered in O; discriminate|]. left. split; [|exact Logic.I].
      split; [discriminate|]. split; [|exact Logic.I]. intros _. split.
      * exists [12]. split; [repeat constructor; intros []|]. split; [|cbn; lia]. intro v. rewrite mat_offered. cbn. split; [intros [<-|[]]; reflexivity|intro H; injection H as <-; auto].
      * intros v O. split; [intros; exact Logic.I|]. intros a [<-|[]]. reflexivity.
    + split; [discriminate|]. split; [intros []|]. intros _. split; [exact Logic.I|]. split; [exact once|]. intros a v [].
    + split; [discriminate|]. split; [|exact Logic.I]. intros _. split.
      * exists []. split; [constructor|]. split; [|cbn; lia]. intro v. rewrite mat_offered. split; [intros []|discriminate].
      * intros v O. apply mat_offered in O. discriminate.
  - split; [cbn; auto|]. cbn [fillable fillable_te]. split; [repeat constructor; intros []|]. split; [discriminate|]. split; [intros []|].
    intros _. split; [exact Logic.I|]. split; [exact once|]. intros a v [].
Qed.
Lemma mat_fragment : all_in_fragment [] mat_schema.
Proof.
  split.
  - intros a d [<-|[]] I. cbn in I. destruct I as [<-|[<-|[]]]; reflexivity.
  - intros l e DE x W. apply (defines_declared mat_schema l e) in DE; [|intros l' e' D; apply (mat_fillable l' e' D)].
    apply mat_declared in DE. unfold mat_schema, leaf_tc in DE. cbn [hd a_shapes d_expr] in DE. destruct DE as [[_ ->]|[_ ->]]; look; try exact Logic.I.
    + split; [reflexivity|]. split; [cbn; repeat split; try (exists 1; lia); discriminate|]. split; [left; split; [split; left; reflexivity|cbn; repeat split; left; repeat split; left; reflexivity]|].
      split; [left; cbn; repeat constructor; cbn; intuition discriminate|]. split; [|intros _ p []].
      intros k v acts H. look; (split; [reflexivity|]); (split; [first [left; reflexivity|right; left; reflexivity|right; right; eexists; reflexivity]|]); intros p [].
    + split; [reflexivity|]. split; [exact Logic.I|]. split; [exact Logic.I|]. split; [left; repeat constructor; intros []|]. split; [|discriminate].
      intros k v acts H. look. split; [reflexivity|]. split; [left; reflexivity|]. intros p [].
    + split; [reflexivity|]. discriminate.
Qed.
Lemma mat_labelled r te : ~ labelled [] mat_schema r te.
Proof.
  intros (a & e & c & x & t0 & ex & I & S & W & L). cbn in I. destruct I as [<-|[]]. destruct S as [S|(d & Id & <-)]; [discriminate|].
  cbn in Id. unfold leaf_tc in Id. destruct Id as [<-|[<-|[]]]; cbn [d_expr] in W; look; discriminate.
Qed.

Example C78_met :
  materialize mat_bnode (fun _ => true) Some mat_values mat_schema 9 None = Ok (101, mat_result) /\
  (forall i j, mat_bnode i = mat_bnode j -> i = j) /\ fillable_schema mat_eval no_ext Some mat_values mat_schema /\
  start_label mat_schema 1 /\ all_declared mat_schema /\ without_recursion mat_schema /\ has_start mat_schema /\
  compile_ir all_known 9 [] mat_schema = Ok mat_ir /\ consistent [] mat_schema /\ unambiguous [] mat_schema /\ all_in_fragment [] mat_schema /\
  index_of mat_ir 1 0 /\
  fst (engine_run mat_eval (fun _ _ => false) 0 no_extends (compiled mat_ir) mat_result id_ord 20 [EngineModel.key 101 0] fresh)
    = Some [(EngineModel.key 101 0, true)].
Proof.
  split; [vm_compute; reflexivity|]. split; [unfold mat_bnode; lia|]. split; [exact mat_fillable|]. split; [reflexivity|].
  assert (C : forall l, called mat_schema l -> l = 2).
  { intros l [(d & I & H)|(e & H & _)]; [|discriminate]. cbn in I. unfold leaf_tc in I. destruct I as [<-|[<-|[]]]; cbn [d_expr] in H;
      repeat match goal with
             | H : In _ (_ :: _) |- _ => destruct H; subst
             | H : In _ [] |- _ => destruct H
             | H : calls _ _ |- _ => inversion H; clear H; subst
             | H : calls_te _ _ |- _ => inversion H; clear H; subst
             end; reflexivity. }
  split; [intros l H; apply C in H; subst l; eexists; split; [right; left; reflexivity|reflexivity]|]. split.
  { exists (fun l => 2 - l). intros d l I H. assert (l = 2) as -> by (apply C; left; eauto). cbn in I. destruct I as [<-|[<-|[]]]; [cbn; lia|].
    exfalso. cbn [d_expr] in H. repeat match goal with
             | H : calls _ _ |- _ => inversion H; clear H; subst
             | H : calls_te _ _ |- _ => inversion H; clear H; subst
             end. }
  split; [right; discriminate|]. split; [vm_compute; reflexivity|]. split; [apply distinct_consistent; repeat constructor; cbn; intuition discriminate|].
  split; [intros r te te' A; destruct (mat_labelled r te A)|]. split; [exact mat_fragment|]. split; [reflexivity|]. vm_compute. reflexivity.
Qed.

(** ** Where the full statement fails *)

(** a schema with one declaration *)
Definition single (e : ase) : aschema := mkAschema None [mkDecl 1 e false].
Lemma single_defines e l e' : no_inclusion e -> defines [] (single e) l e' -> l = 1 /\ e' = e.
Proof.
  intros N D. assert (X : forall l e0, declared [] (single e) l e0 -> l = 1 /\ e0 = e).
  { intros l0 e0 [(a & d & [<-|[]] & I & <- & <-)|[_ H]]; [|discriminate]. cbn in I. destruct I as [<-|[]]. auto. }
  apply defines_declared in D; [exact (X l e' D)|]. intros l0 e0 D0. destruct (X l0 e0 D0) as [_ ->]. exact N.
Qed.
Lemma single_shape eval ext g e n : no_inclusion e -> has_shape eval ext g [] (single e) n 1 -> exists T, sat eval ext g T e n.
Proof.
  intros N (T & TT & S). destruct (S n 1 TT) as (e' & D & H). apply single_defines in D; [|exact N]. destruct D as [_ ->]. eauto.
Qed.
Definition two_values (x : nat) : option nat := match x with 20 => Some 10 | 21 => Some 11 | _ => None end.
Definition all_true (k v : nat) : bool := true.
Notation run sch := (materialize mat_bnode (fun _ => true) Some two_values sch 5 None).

(** [<1> { :1 . %20% | :2 . %21% }]: every alternative of a choice is written. *)
Theorem C78_choice_refuted : exists (sch : aschema) (n : nat) (g : rdf),
  run sch = Ok (n, g) /\ start_label sch 1 /\ ~ has_shape all_true no_ext g [] sch n 1.
Proof.
  exists (single (AShape None None (Some (AOne None [leaf_tc 1 None 20; leaf_tc 2 None 21] None None [])) [])), 101, [(101, 1, 10); (101, 2, 11)].
  split; [vm_compute; reflexivity|]. split; [reflexivity|]. intro H. apply single_shape in H; [|cbn; auto].
  destruct H as (T & matched & rest & [N A] & (k & K1 & K2 & M) & R). cbn in K1, K2. assert (k = 1) as -> by lia.
  destruct M as (a & b & P & M & ->). rewrite app_nil_r in P.
  assert (I : forall p v, In (101, p, v) [(101, 1, 10); (101, 2, 11)] -> p = 1 \/ p = 2 -> In (direct p, v) a).
  { intros p v J Hp. assert (X : In (direct p, v) (matched ++ rest)) by (apply A; exists p; left; auto).
    apply in_app_iff in X. destruct X as [X|X]; [exact (Permutation_in _ P X)|]. exfalso.
    assert (D : is_direct (direct p) = true) by (destruct Hp as [-> | ->]; reflexivity).
    destruct (R _ _ X D) as [R1 _]. destruct R1 as [(q & [] & _) _]. cbn. destruct Hp as [-> | ->]; auto. }
  pose proof (I 1 10 (or_introl eq_refl) (or_introl eq_refl)) as I1.
  pose proof (I 2 11 (or_intror (or_introl eq_refl)) (or_intror eq_refl)) as I2.
  destruct M as [M|[M|[]]]; destruct M as (_ & _ & M); [apply M in I2; destruct I2 as [I2 _]|apply M in I1; destruct I1 as [I1 _]]; discriminate.
Qed.

(** [<1> { :1 . {2} %20% }]: one arc is written whatever the cardinality. *)
Theorem C78_cardinality_refuted : exists (sch : aschema) (n : nat) (g : rdf),
  run sch = Ok (n, g) /\ start_label sch 1 /\ ~ has_shape all_true no_ext g [] sch n 1.
Proof.
  exists (single (AShape None None (Some (ATc None None 1 None (Some 2%Z) (Some 2%Z) [20])) [])), 101, [(101, 1, 10)].
  split; [vm_compute; reflexivity|]. split; [reflexivity|]. intro H. apply single_shape in H; [|exact Logic.I].
  destruct H as (T & matched & rest & [N A] & M & R). cbn in M. destruct M as (L & _ & M).
  assert (X : forall a, In a matched -> a = (direct 1, 10)).
  { intros [k v] I. destruct (M k v I) as [-> _]. assert (J : In (direct 1, v) (matched ++ rest)) by (apply in_app_iff; auto).
    apply A in J. destruct J as (p & [[E J]|[E J]]); [|exfalso; unfold direct, EngineModel.inverse in E; lia]. destruct J as [J|[]]. injection J as _ <-. reflexivity. }
  destruct (NoDup_app_inv _ _ N) as (N1 & _ & _). destruct matched as [|a [|b r]]; cbn in L; [lia|lia|].
  inversion N1; subst. apply H1. left. rewrite (X a (or_introl eq_refl)). apply X. right. left. reflexivity.
Qed.

(** [<1> { ^:1 . %20% }]: an inverse arc is written the other way round. *)
Theorem C78_inverse_refuted : exists (sch : aschema) (n : nat) (g : rdf),
  run sch = Ok (n, g) /\ start_label sch 1 /\ ~ has_shape all_true no_ext g [] sch n 1.
Proof.
  exists (single (AShape None None (Some (ATc None (Some true) 1 None None None [20])) [])), 101, [(101, 1, 10)].
  split; [vm_compute; reflexivity|]. split; [reflexivity|]. intro H. apply single_shape in H; [|exact Logic.I].
  destruct H as (T & matched & rest & [N A] & M & R). cbn in M. destruct M as (L & _ & M). destruct matched as [|[k v] r]; [cbn in L; lia|].
  destruct (M k v (or_introl eq_refl)) as [-> _]. assert (J : In (EngineModel.inverse 1, v) (((EngineModel.inverse 1, v) :: r) ++ rest)) by (left; reflexivity).
  apply A in J. destruct J as (p & [[E J]|[E J]]); [unfold direct, EngineModel.inverse in E; lia|]. destruct J as [J|[]]. discriminate.
Qed.

(** [<1> { :1 . %20% } AND {}]: nothing is written for a conjunction. *)
Theorem C78_conjunction_refuted : exists (sch : aschema) (n : nat) (g : rdf),
  run sch = Ok (n, g) /\ start_label sch 1 /\ ~ has_shape all_true no_ext g [] sch n 1.
Proof.
  exists (single (AAnd [AShape None None (Some (leaf_tc 1 None 20)) []; AShape None None None []])), 101, [].
  split; [vm_compute; reflexivity|]. split; [reflexivity|]. intro H. apply single_shape in H; [|cbn; auto].
  destruct H as (T & (matched & rest & [N A] & M & R) & _). cbn in M. destruct M as (L & _ & M). destruct matched as [|[k v] r]; [cbn in L; lia|].
  assert (J : In (k, v) (((k, v) :: r) ++ rest)) by (left; reflexivity). apply A in J. destruct J as (p & [[_ []]|[_ []]]).
Qed.

(** [<1> { :1 . %30% }]: a value that the map does not have is left out without an error. *)
Theorem C78_missing_value_refuted : exists (sch : aschema) (n : nat) (g : rdf),
  run sch = Ok (n, g) /\ start_label sch 1 /\ ~ has_shape all_true no_ext g [] sch n 1.
Proof.
  exists (single (AShape None None (Some (leaf_tc 1 None 30)) [])), 101, [].
  split; [vm_compute; reflexivity|]. split; [reflexivity|]. intro H. apply single_shape in H; [|exact Logic.I].
  destruct H as (T & matched & rest & [N A] & M & R). cbn in M. destruct M as (L & _ & M). destruct matched as [|[k v] r]; [cbn in L; lia|].
  assert (J : In (k, v) (((k, v) :: r) ++ rest)) by (left; reflexivity). apply A in J. destruct J as (p & [[_ []]|[_ []]]).
Qed.

(** [<1> { :1 @<1> ? }], which holds of every node of the empty graph: no graph is ever made. *)
Theorem C78_recursion_refuted : exists sch : aschema,
  all_declared sch /\ has_start sch /\ start_label sch 1 /\ (forall n, has_shape all_true no_ext [] [] sch n 1) /\
  forall bnode can_be_subject key values fuel initial r, materialize bnode can_be_subject key values sch fuel initial <> Ok r.
Proof.
  set (e := AShape None None (Some (ATc None None 1 (Some (ARef 1)) (Some 0%Z) (Some 1%Z) [])) []). exists (single e).
  split; [|split; [right; discriminate|split; [reflexivity|split]]].
  - intros l [(d & I & H)|(x & H & _)]; [|discriminate]. cbn in I. destruct I as [<-|[]]. cbn [d_expr] in H.
    exists (mkDecl 1 e false). split; [left; reflexivity|]. unfold e in H. inversion H; subst. inversion H1; subst. inversion H2; subst. reflexivity.
  - intro n. exists (fun _ j => Nat.eqb j 1). split; [reflexivity|]. intros m j J. apply Nat.eqb_eq in J. subst j. exists e. split.
    + apply defines_declared; [|left; exists (single e); eexists; split; [left; reflexivity|split; [left; reflexivity|split; reflexivity]]].
      intros l e0 [(a & d & [<-|[]] & I & _ & <-)|[_ H]]; [|discriminate]. cbn in I. destruct I as [<-|[]]. exact Logic.I.
    + exists [], []. split; [split; [constructor|]; intros k v; split; [intros []|intros (p & [[_ []]|[_ []]])]|]. split; [|intros k v []].
      cbn. split; [lia|]. split; [right; lia|]. intros k v [].
  - intros bnode cs key values fuel initial r H.
    assert (X : forall f n m m', gen_se bnode key values (single e) f e n m <> Ok m').
    { intro f. induction f as [f IH] using (well_founded_induction lt_wf). intros n m m'. destruct f as [|[|f]]; [discriminate|discriminate|].
      cbn. apply IH. lia. }
    unfold materialize in H. destruct initial as [n|]; [destruct (cs n); [|discriminate]|]; cbn [bind find_start single a_start a_shapes add_bnode d_expr m_counter m_graph] in H.
    + destruct (gen_se bnode key values (single e) fuel e n (mkMat 0 [])) as [m'| |] eqn:G; try discriminate. exact (X _ _ _ _ G).
    + destruct (gen_se bnode key values (single e) fuel e (bnode 1) (mkMat 1 [])) as [m'| |] eqn:G; try discriminate. exact (X _ _ _ _ G).
Qed.

(** [<1> { :1 @<2> }], [<2> CLOSED { :2 . %20% }] from the root [bnode 1]: a new blank node is not new when the root is
    one with the same number. *)
Definition clash_schema : aschema :=
  mkAschema None [mkDecl 1 (AShape None None (Some (ATc None None 1 (Some (ARef 2)) None None [])) []) false;
                  mkDecl 2 (AShape (Some true) None (Some (leaf_tc 2 None 20)) []) false].
Theorem C78_blank_node_refuted : exists (sch : aschema) (n : nat) (g : rdf),
  materialize mat_bnode (fun _ => true) Some two_values sch 5 (Some (mat_bnode 1)) = Ok (n, g) /\
  fillable_schema all_true no_ext Some two_values sch /\ start_label sch 1 /\ ~ has_shape all_true no_ext g [] sch n 1.
Proof.
  exists clash_schema, 101, [(101, 1, 101); (101, 2, 10)].
  assert (D : forall l e, declared [] clash_schema l e -> (l = 1 /\ e = AShape None None (Some (ATc None None 1 (Some (ARef 2)) None None [])) []) \/
                (l = 2 /\ e = AShape (Some true) None (Some (leaf_tc 2 None 20)) [])).
  { intros l e [(a & d & [<-|[]] & I & <- & <-)|[_ H]]; [|discriminate]. cbn in I. destruct I as [<-|[<-|[]]]; auto. }
  assert (once : once_allowed None None) by (split; cbn; lia).
  assert (F : fillable_schema all_true no_ext Some two_values clash_schema).
  { intros l e H. apply D in H. destruct H as [[_ ->]|[_ ->]]; (split; [exact Logic.I|]).
    - cbn [fillable fillable_te]. split; [repeat constructor; intros []|]. split; [discriminate|]. split; [intros []|]. intros _. split; [exact Logic.I|]. split; [exact once|]. intros a v [].
    - cbn [fillable fillable_te leaf_tc]. split; [repeat constructor; intros []|]. split; [discriminate|]. split; [|exact Logic.I]. intros _. split.
      + exists [10]. split; [repeat constructor; intros []|]. split; [|cbn; lia]. intro v. split.
        * intros [<-|[]]. exists 20, 20. split; [left; reflexivity|split; reflexivity].
        * intros (a & x & [<-|[]] & K & V). injection K as <-. injection V as <-. left. reflexivity.
      + intros v _. split; [intros; exact Logic.I|reflexivity]. }
  split; [vm_compute; reflexivity|]. split; [exact F|]. split; [reflexivity|]. intros (T & TT & S).
  assert (S' : forall m j, T m j = true -> exists e, declared [] clash_schema j e /\ sat all_true no_ext [(101, 1, 101); (101, 2, 10)] T e m).
  { intros m j H. destruct (S m j H) as (e & DE & H'). exists e. split; [|exact H']. apply defines_declared in DE; [exact DE|]. intros l e0 D0. apply (F l e0 D0). }
  destruct (S' 101 1 TT) as (e & DE & H). apply D in DE. destruct DE as [[_ ->]|[E _]]; [|discriminate].
  destruct H as (matched & rest & [N A] & M & R). cbn in M. destruct M as (L & _ & M). destruct matched as [|[k v] r]; [cbn in L; lia|].
  destruct (M k v (or_introl eq_refl)) as (-> & TV & _). assert (J : In (direct 1, v) (((direct 1, v) :: r) ++ rest)) by (left; reflexivity).
  apply A in J. destruct J as (p & [[E J]|[E J]]); [|unfold direct, EngineModel.inverse in E; lia]. apply direct_inj in E. subst p.
  destruct J as [J|[J|[]]]; [|discriminate]. injection J as <-. clear -TV S' D.
  destruct (S' 101 2 TV) as (e & DE & H). apply D in DE. destruct DE as [[E _]|[_ ->]]; [discriminate|].
  destruct H as (matched & rest & [N A] & M & R). cbn in M. destruct M as (_ & _ & M).
  assert (J : In (direct 1, 101) (matched ++ rest)) by (apply A; exists 1; left; split; [reflexivity|left; reflexivity]).
  apply in_app_iff in J. destruct J as [J|J]; [destruct (M _ _ J) as [E _]; discriminate|].
  destruct (R _ _ J eq_refl) as [_ R2]. apply R2; [cbn; discriminate|reflexivity].
Qed.
Print Assumptions C78_choice_refuted.
Print Assumptions C78_cardinality_refuted.
Print Assumptions C78_inverse_refuted.
Print Assumptions C78_conjunction_refuted.
Print Assumptions C78_missing_value_refuted.
Print Assumptions C78_recursion_refuted.
Print Assumptions C78_blank_node_refuted.
