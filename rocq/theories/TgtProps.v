(** Properties C70 and C71: the targets of shapes; the report, from shapes as written. *)
From Coq Require Import List Bool NArith ZArith Relations Lia Arith Permutation.
Import ListNotations.
From Verif Require Import GraphModel GraphSpec GraphLemmas LevelModel LevelSpec LevelLemmas LevelProps.
From Verif Require Import PathModel PathSpec PathLemmas ProgModel ProgLemmas ShaclModel ShaclSpec ShaclLemmas ShaclConf ShaclProps.
From Verif Require Import ShcModel ShcSpec ShcLemmas ShcMeaning ShcProps TgtModel TgtSpec TgtLemmas TgtWhole.

(** the targets of a shape, with and without the index *)
Definition native_nodes (V : vocabulary) (g : graph) (key : N -> option N) (back : N -> N) (use : bool) (ts : list target) : res (list term) :=
  focus_nodes (native g (v_type V) (v_sub V) back (if use then Some (build_index g (v_type V) (v_sub V) key) else None)) ts.

(** the focus nodes of well-written targets are targets, each listed once *)
Theorem C70_sound V g key back use ts : rdf_graph g -> v_type V <> v_sub V -> (forall tg, In tg ts -> proper_target back tg) ->
  exists l, native_nodes V g key back use ts = Ok l /\ NoDup l /\ forall t, In t l -> exists tg, In tg ts /\ is_target V g tg t.
Proof.
  intros G TS P. destruct (focus_from (native g (v_type V) (v_sub V) back (if use then Some (build_index g (v_type V) (v_sub V) key) else None)) (found V g) ts) as (l & E & N & H).
  - intros tg I. destruct (native_found V g key back G TS use tg (P tg I)) as (l & E & _ & H). exists l. auto.
  - exists l. split; [exact E|]. split; [exact N|]. intros t I. apply H in I. destruct I as (tg & I & K). exists tg. split; [exact I|apply found_sound, K].
Qed.
Print Assumptions C70_sound.

(** they are all targets if the class hierarchy is shallow.
    Full statement: without [shallow_target]; see C70_subclass_refuted. *)
Theorem C70_exact_partial V g key back use ts : rdf_graph g -> v_type V <> v_sub V ->
  (forall tg, In tg ts -> proper_target back tg /\ shallow_target V g tg) ->
  exists l, native_nodes V g key back use ts = Ok l /\ NoDup l /\ forall t, In t l <-> exists tg, In tg ts /\ is_target V g tg t.
Proof.
  intros G TS P. apply (focus_from (native g (v_type V) (v_sub V) back (if use then Some (build_index g (v_type V) (v_sub V) key) else None)) (is_target V g) ts).
  intros tg I. destruct (P tg I) as [P1 P2]. destruct (native_found V g key back G TS use tg P1) as (l & E & _ & H). exists l. split; [exact E|].
  intros t. rewrite H. split; [apply found_sound|apply found_complete, P2].
Qed.
Print Assumptions C70_exact_partial.

(** the index changes nothing, whatever the class hierarchy *)
Theorem C70_index V g key back ts : rdf_graph g -> v_type V <> v_sub V -> (forall tg, In tg ts -> proper_target back tg) ->
  exists l l', native_nodes V g key back true ts = Ok l /\ native_nodes V g key back false ts = Ok l' /\ Permutation l l'.
Proof.
  intros G TS P.
  assert (X : forall use, exists l, native_nodes V g key back use ts = Ok l /\ NoDup l /\ forall t, In t l <-> exists tg, In tg ts /\ found V g tg t).
  { intros use. apply (focus_from (native g (v_type V) (v_sub V) back (if use then Some (build_index g (v_type V) (v_sub V) key) else None)) (found V g) ts).
    intros tg I. destruct (native_found V g key back G TS use tg (P tg I)) as (l & E & _ & H). exists l. auto. }
  destruct (X true) as (l & E & N & H). destruct (X false) as (l' & E' & N' & H'). exists l, l'. split; [exact E|]. split; [exact E'|].
  apply NoDup_Permutation; [exact N|exact N'|]. intros t. rewrite H, H'. reflexivity.
Qed.
Print Assumptions C70_index.

(** all nodes of a proper hierarchy, each once *)
Definition t_voc : vocabulary := mkVoc 200 201 (fun _ _ => True).
Definition t_graph : graph := [(TIri 1, 200%N, TIri 10); (TIri 2, 200%N, TIri 11); (TBnode 3, 200%N, TIri 10); (TIri 11, 201%N, TIri 10); (TIri 2, 5%N, TLit 7); (TIri 4, 200%N, TIri 12); (TIri 4, 200%N, TIri 13); (TIri 12, 201%N, TIri 13)].
Ltac tell2 := cbn in *; repeat match goal with H : _ \/ _ |- _ => destruct H | H : False |- _ => destruct H | H : (_, _, _) = (_, _, _) |- _ => inversion H; clear H; subst end; try discriminate; try congruence.
Lemma t_subclass x y : subclass 201 t_graph x y -> x = y \/ (x = TIri 11 /\ y = TIri 10) \/ (x = TIri 12 /\ y = TIri 13).
Proof.
  intros H. apply clos_rt_rt1n in H. induction H as [x|x y z H K IH]; [auto|]. cbn in H. tell2; subst; auto;
    repeat match goal with H : _ /\ _ |- _ => destruct H end; subst; try discriminate; auto.
Qed.
Example C70_met : rdf_graph t_graph /\ v_type t_voc <> v_sub t_voc /\
  (forall tg, In tg [TgNode (TIri 9); TgClass (TIri 13); TgImplicit (TIri 10); TgObjectsOf 5; TgSubjectsOf 5] -> proper_target (fun n => n) tg /\ shallow_target t_voc t_graph tg) /\
  native_nodes t_voc t_graph (fun n => Some n) (fun n => n) true [TgNode (TIri 9); TgClass (TIri 13); TgImplicit (TIri 10); TgObjectsOf 5; TgSubjectsOf 5] =
    Ok [TLit 7; TIri 2; TIri 1; TBnode 3; TIri 4; TIri 9].
Proof.
  refine (conj _ (conj _ (conj _ _))).
  - intros s p o H. cbn in H. tell2; exact Logic.I.
  - cbn. congruence.
  - intros tg [<-|[<-|[<-|[<-|[<-|[]]]]]]; (split; [cbn|]); try exact Logic.I; try (intros []; fail); try (split; [intros []|congruence]).
    + intros t (k & H & K). apply t_subclass in K. destruct K as [->|[[-> K]|[-> _]]]; [exact H|discriminate|]. cbn in H |- *. tell2; auto 20.
    + intros t (k & H & K). exists k. split; [exact H|]. apply t_subclass in K. destruct K as [->|[[-> _]|[-> K]]]; [auto|right; cbn; auto 10|discriminate].
  - vm_compute. reflexivity.
Qed.

(** ** the SPARQL engine *)
Lemma class_path_holds g type sub t c : holds g (class_path type sub) t c <-> instance type sub g t c.
Proof.
  unfold class_path, instance, subclass. cbn [holds]. split.
  - intros (k & H & m & K & ->). exists k. split; [exact H|]. apply clos_rt1n_rt. exact K.
  - intros (k & H & K). exists k. split; [exact H|]. exists c. split; [|reflexivity]. apply clos_rt_rt1n. exact K.
Qed.
(** the focus nodes are exactly the targets, whatever the class hierarchy, if queries are answered as they should.
    Full statement: for classes that are blank nodes too; see C70_blank_class_refuted. *)
Theorem C70_sparql_partial V g back select ts : (forall t c, In t (select (class_path (v_type V) (v_sub V)) c) <-> holds g (class_path (v_type V) (v_sub V)) t c) ->
  (forall tg, In tg ts -> proper_target back tg /\ forall c, tg = TgClass c \/ tg = TgImplicit c -> ~ blank c) ->
  exists l, focus_nodes (sparql g (v_type V) (v_sub V) back select) ts = Ok l /\ NoDup l /\ forall t, In t l <-> exists tg, In tg ts /\ is_target V g tg t.
Proof.
  intros S P. apply (focus_from (sparql g (v_type V) (v_sub V) back select) (is_target V g) ts). intros tg I. destruct (P tg I) as [P1 P2].
  assert (CL : forall c, ~ literal c -> ~ blank c -> exists l, sparql_class (v_type V) (v_sub V) back select c = Ok l /\ forall t, In t l <-> instance (v_type V) (v_sub V) g t c).
  { intros c NL NB. unfold sparql_class. destruct c as [n|n|n]; [|destruct (NB Logic.I)|destruct (NL Logic.I)]. eexists. split; [reflexivity|]. intros t. rewrite S. apply class_path_holds. }
  destruct tg as [n|c|p|p|c|w]; cbn [sparql is_target proper_target] in *.
  - destruct P1 as [Q1 Q2]. exists [n]. split; [unfold target_node; destruct n as [m|m|m]; [reflexivity|destruct Q1; exact Logic.I|cbn; rewrite (Q2 m eq_refl); reflexivity]|]. intros t. cbn. split; [intros [->|[]]; reflexivity|intros ->; auto].
  - apply CL; [exact P1|apply P2; auto].
  - eexists. split; [reflexivity|]. intros t. rewrite tset_in, in_map_iff. split.
    + intros ([[s q] o] & <- & H). apply filter_In in H. destruct H as [H K]. cbn in *. apply N.eqb_eq in K. subst q. exists o. exact H.
    + intros (o & H). exists (t, p, o). split; [reflexivity|]. apply filter_In. split; [exact H|]. cbn. apply N.eqb_refl.
  - eexists. split; [reflexivity|]. intros t. rewrite tset_in, in_map_iff. split.
    + intros ([[s q] o] & <- & H). apply filter_In in H. destruct H as [H K]. cbn in *. apply N.eqb_eq in K. subst q. exists s. exact H.
    + intros (s & H). exists (s, p, t). split; [reflexivity|]. apply filter_In. split; [exact H|]. cbn. apply N.eqb_refl.
  - apply CL; [exact P1|apply P2; auto].
  - destruct P1.
Qed.
Print Assumptions C70_sparql_partial.
(** a way of answering queries as they should be *)
Definition t_select (p : path) (c : term) : list term :=
  match c with TIri 10%N => [TIri 1; TIri 2; TBnode 3] | TIri 11%N => [TIri 2] | TIri 12%N => [TIri 4] | TIri 13%N => [TIri 4] | _ => [] end.
Example C70_sparql_met : (forall t c, In t (t_select (class_path 200 201) c) <-> holds t_graph (class_path 200 201) t c) /\
  focus_nodes (sparql t_graph 200 201 (fun n => n) t_select) [TgClass (TIri 10); TgObjectsOf 5] = Ok [TLit 7; TBnode 3; TIri 2; TIri 1].
Proof.
  split; [|vm_compute; reflexivity]. intros t c. rewrite class_path_holds. split.
  - assert (X : forall t k c, In (t, 200%N, k) t_graph -> k = c \/ In (k, 201%N, c) t_graph -> instance 200 201 t_graph t c).
    { intros t' k c' H [<-|K]; exists k; (split; [exact H|]); [apply rt_refl|apply rt_step, K]. }
    assert (Y : In t (t_select (class_path 200 201) c) -> (c = TIri 10 /\ In t [TIri 1; TIri 2; TBnode 3]) \/ (c = TIri 11 /\ t = TIri 2) \/ (c = TIri 12 /\ t = TIri 4) \/ (c = TIri 13 /\ t = TIri 4)).
    { unfold t_select. destruct c as [[|p]|n|n]; try intros []; repeat (destruct p as [p|p|]; try (intros []; fail)); cbn; intuition. }
    intros H. apply Y in H. destruct H as [[-> [<-|[<-|[<-|[]]]]]|[[-> ->]|[[-> ->]|[-> ->]]]].
    + apply (X (TIri 1) (TIri 10)); cbn; auto 20.
    + apply (X (TIri 2) (TIri 11)); cbn; auto 20.
    + apply (X (TBnode 3) (TIri 10)); cbn; auto 20.
    + apply (X (TIri 2) (TIri 11)); cbn; auto 20.
    + apply (X (TIri 4) (TIri 12)); cbn; auto 20.
    + apply (X (TIri 4) (TIri 13)); cbn; auto 20.
  - intros (k & H & K). apply t_subclass in K. destruct K as [->|[[-> ->]|[-> ->]]]; cbn in H; tell2; cbn; auto.
Qed.

(** both engines agree if the class hierarchy is shallow *)
Theorem C70_engines_agree_partial V g key back select use ts : rdf_graph g -> v_type V <> v_sub V -> (forall t c, In t (select (class_path (v_type V) (v_sub V)) c) <-> holds g (class_path (v_type V) (v_sub V)) t c) ->
  (forall tg, In tg ts -> proper_target back tg /\ shallow_target V g tg /\ forall c, tg = TgClass c \/ tg = TgImplicit c -> ~ blank c) ->
  exists l l', native_nodes V g key back use ts = Ok l /\ focus_nodes (sparql g (v_type V) (v_sub V) back select) ts = Ok l' /\ Permutation l l'.
Proof.
  intros G TS S P. destruct (C70_exact_partial V g key back use ts G TS) as (l & E & N & H); [intros tg I; destruct (P tg I) as (P1 & P2 & _); auto|].
  destruct (C70_sparql_partial V g back select ts S) as (l' & E' & N' & H'); [intros tg I; destruct (P tg I) as (P1 & _ & P3); auto|].
  exists l, l'. split; [exact E|]. split; [exact E'|]. apply NoDup_Permutation; [exact N|exact N'|]. intros t. rewrite H, H'. reflexivity.
Qed.
Print Assumptions C70_engines_agree_partial.

(** ** a target that is not written as SHACL asks for it ends the run, wherever it stands *)
Theorem C70_panics V g key back use ts : (exists l, native_nodes V g key back use ts = Ok l) \/ (native_nodes V g key back use ts = Panic /\ exists t, In (TgWrong t) ts).
Proof.
  unfold native_nodes, focus_nodes. set (each := native g (v_type V) (v_sub V) back _).
  assert (X : forall tg, (exists l, each tg = Ok l) \/ each tg = Err \/ (each tg = Panic /\ exists t, tg = TgWrong t)).
  { intros tg. unfold each. destruct tg as [n|c|p|p|c|w]; cbn [native].
    - unfold target_node. destruct n; eauto.
    - unfold target_class, subjects_for. destruct use; eauto.
    - left. eexists. reflexivity.
    - left. eexists. reflexivity.
    - unfold implicit_class, subjects_for. destruct use; cbn [bind]; eauto.
    - right. right. split; [reflexivity|]. exists w. reflexivity. }
  induction ts as [|tg ts IH]; [left; eexists; reflexivity|]. cbn [focus_nodes_from].
  destruct IH as [(l & IH)|(IH & t & T)]; (destruct (X tg) as [(l' & E)|[E|(E & w & ->)]]; rewrite E).
  - destruct (focus_nodes_from each ts); try discriminate. cbn. left. eexists. reflexivity.
  - left. exists l. exact IH.
  - right. split; [reflexivity|]. exists w. left. reflexivity.
  - right. destruct (focus_nodes_from each ts); try discriminate. split; [reflexivity|]. exists t. right. exact T.
  - right. split; [exact IH|]. exists t. right. exact T.
  - right. split; [reflexivity|]. exists w. left. reflexivity.
Qed.
Print Assumptions C70_panics.
Theorem C70_wrong V g key back use ts t : In (TgWrong t) ts -> native_nodes V g key back use ts = Panic.
Proof.
  intros H. destruct (C70_panics V g key back use ts) as [(l & E)|[E _]]; [|exact E]. exfalso. revert l E. unfold native_nodes, focus_nodes. set (each := native g (v_type V) (v_sub V) back _).
  induction ts as [|tg ts IH]; [destruct H|]. intros l E. cbn [focus_nodes_from] in E. destruct H as [->|H].
  - unfold each at 1 in E. cbn in E. discriminate.
  - destruct (each tg); try discriminate.
    + destruct (focus_nodes_from each ts) as [y| | |] eqn:F; try discriminate. apply (IH H (tset y)). reflexivity.
    + exact (IH H l E).
Qed.
Print Assumptions C70_wrong.

(** ** where the engines go wrong *)
(** instances of subclasses are left out by the native engine *)
Theorem C70_subclass_refuted : exists V g key back c t, rdf_graph g /\ v_type V <> v_sub V /\ proper_target back (TgClass c) /\ is_target V g (TgClass c) t /\
  forall use, native_nodes V g key back use [TgClass c] = Ok [TIri 1].
Proof.
  exists t_voc, [(TIri 1, 200%N, TIri 10); (TIri 2, 200%N, TIri 11); (TIri 11, 201%N, TIri 10)], (fun n => Some n), (fun n => n), (TIri 10), (TIri 2). refine (conj _ (conj _ (conj _ (conj _ _)))).
  - intros s p o H. cbn in H. tell2; exact Logic.I.
  - cbn. congruence.
  - intros [].
  - exists (TIri 11). split; [cbn; auto|]. apply rt_step. cbn. auto.
  - intros []; vm_compute; reflexivity.
Qed.
Print Assumptions C70_subclass_refuted.
(** so are instances of subclasses of subclasses of a shape that is a class *)
Theorem C70_implicit_depth_refuted : exists V g key back c t, rdf_graph g /\ v_type V <> v_sub V /\ proper_target back (TgImplicit c) /\ is_target V g (TgImplicit c) t /\
  forall use, exists l, native_nodes V g key back use [TgImplicit c] = Ok l /\ ~ In t l.
Proof.
  exists t_voc, [(TIri 2, 200%N, TIri 12); (TIri 12, 201%N, TIri 11); (TIri 11, 201%N, TIri 10)], (fun n => Some n), (fun n => n), (TIri 10), (TIri 2). refine (conj _ (conj _ (conj _ (conj _ _)))).
  - intros s p o H. cbn in H. tell2; exact Logic.I.
  - cbn. congruence.
  - intros [].
  - exists (TIri 12). split; [cbn; auto|]. apply rt_trans with (TIri 11); apply rt_step; cbn; auto.
  - intros []; exists []; (split; [vm_compute; reflexivity|intros []]).
Qed.
Print Assumptions C70_implicit_depth_refuted.
(** a shape that is a class takes in the instances of a subclass, sh:targetClass with the same class does not *)
Theorem C70_class_implicit_refuted : exists V g key back c, rdf_graph g /\ v_type V <> v_sub V /\ ~ literal c /\ (forall t, is_target V g (TgClass c) t <-> is_target V g (TgImplicit c) t) /\
  forall use, native_nodes V g key back use [TgClass c] = Ok [] /\ native_nodes V g key back use [TgImplicit c] = Ok [TIri 2].
Proof.
  exists t_voc, [(TIri 2, 200%N, TIri 11); (TIri 11, 201%N, TIri 10)], (fun n => Some n), (fun n => n), (TIri 10). refine (conj _ (conj _ (conj _ (conj _ _)))).
  - intros s p o H. cbn in H. tell2; exact Logic.I.
  - cbn. congruence.
  - intros [].
  - intros t. reflexivity.
  - intros []; split; vm_compute; reflexivity.
Qed.
Print Assumptions C70_class_implicit_refuted.
(** the engines differ *)
Theorem C70_engines_refuted : exists V g key back select c, rdf_graph g /\ v_type V <> v_sub V /\ (forall t, In t (select (class_path (v_type V) (v_sub V)) c) <-> holds g (class_path (v_type V) (v_sub V)) t c) /\
  proper_target back (TgClass c) /\ focus_nodes (sparql g (v_type V) (v_sub V) back select) [TgClass c] = Ok [TIri 2] /\ forall use, native_nodes V g key back use [TgClass c] = Ok [].
Proof.
  exists t_voc, [(TIri 2, 200%N, TIri 11); (TIri 11, 201%N, TIri 10)], (fun n => Some n), (fun n => n), (fun _ _ => [TIri 2]), (TIri 10). refine (conj _ (conj _ (conj _ (conj _ (conj _ _))))).
  - intros s p o H. cbn in H. tell2; exact Logic.I.
  - cbn. congruence.
  - intros t. rewrite class_path_holds. split.
    + intros [<-|[]]. exists (TIri 11). split; [cbn; auto|]. apply rt_step. cbn. auto.
    + intros (k & H & _). cbn in H. tell2. auto.
  - intros [].
  - vm_compute. reflexivity.
  - intros []; vm_compute; reflexivity.
Qed.
Print Assumptions C70_engines_refuted.
(** a target node that is a blank node is passed over without a word *)
Theorem C70_blank_node_refuted : exists n, forall V g key back use, is_target V g (TgNode (TBnode n)) (TBnode n) /\ native_nodes V g key back use [TgNode (TBnode n)] = Ok [].
Proof. exists 1%N. intros V g key back use. split; reflexivity. Qed.
Print Assumptions C70_blank_node_refuted.
(** so is a class that is a blank node, by the SPARQL engine *)
Theorem C70_blank_class_refuted : exists V g back c t, is_target V g (TgClass c) t /\ proper_target back (TgClass c) /\
  forall select, focus_nodes (sparql g (v_type V) (v_sub V) back select) [TgClass c] = Ok [].
Proof.
  exists t_voc, [(TIri 2, 200%N, TBnode 11)], (fun n => n), (TBnode 11), (TIri 2). refine (conj _ (conj _ _)).
  - exists (TBnode 11). split; [cbn; auto|apply rt_refl].
  - intros [].
  - intros select. reflexivity.
Qed.
Print Assumptions C70_blank_class_refuted.

(** ** C71: from the shapes as written to the report *)
Lemma ranked_not_recursive A rank : ranked A rank -> ~ arecursive A.
Proof.
  intros R (x & H).
  assert (X : forall x y, clos_trans term (arefers A) x y -> rank y < rank x).
  { intros a b K. induction K as [a b K|a b c K1 IH1 K2 IH2]; [|lia]. destruct K as (s & I & J). apply (R a s b I). unfold arefs. apply in_or_app. destruct J as [(c & C1 & C2)|J].
    - left. apply in_flat_map. exists c. split; [exact C1|]. destruct c; cbn [acomp_refers] in C2; try contradiction; cbn [acomp_refs]; auto; left; congruence.
    - right. apply in_or_app. left. exact J. }
  pose proof (X x x H). lia.
Qed.
(** There is a report, however the threads are scheduled; it is empty exactly if every target conforms to its shape,
    where conformance is that of SHACL, for the shapes as they are written.
    Full statement: with inverse paths of any kind, nested property shapes, reifiers, closed property shapes, recursion and
    any class hierarchy. *)
Theorem C71_report_partial W V regex scc fuel back A rank : distinct A -> well_written regex A -> ranked A rank -> tidy A -> within_reach W V A ->
  v_type V <> v_sub V -> flat_classes (v_sub V) (w_graph W) -> tests_fit W V ->
  (forall id a tg, In (id, a) A -> In tg (a_targets a) -> proper_target back tg /\ shallow_target V (w_graph W) tg) ->
  fuel_for A <= fuel -> (forall id a, In (id, a) A -> rank id < fuel) ->
  (exists C, aconformance W V A C) /\
  (exists r, validates W back (v_type V) (v_sub V) regex scc fuel A r) /\
  forall C r, aconformance W V A C -> validates W back (v_type V) (v_sub V) regex scc fuel A r ->
    exists l, r = Ok l /\ (l = [] <-> forall id a tg t, In (id, a) A -> In tg (a_targets a) -> is_target V (w_graph W) tg t -> C id t).
Proof.
  intros D WW RK T R TS FC FT PT FU DE. pose proof (ranked_not_recursive A rank RK) as NR.
  destruct (compile_cases regex scc fuel A D FU) as [(st & g & E & CS & LC & _)|[_ [B|B]]]; [|contradiction|contradiction].
  destruct (C30_schedule_partial (level_schema st) scc fuel g (level_wf regex A st CS)) as (ls & TL & (_ & LV & _) & _).
  { unfold LevelSpec.enough. unfold fuel_for in FU. pose proof (shapes_count regex A st CS) as SC. lia. }
  { exact LC. }
  assert (OKT : forall level i, In level (by_level (level_schema st) ls) -> In i level -> exists l, shape_targets W back (v_type V) (v_sub V) st i = Ok l).
  { intros level i H K. destruct (in_schedule regex A st D CS (by_level (level_schema st) ls) LV level i H K) as (s & GS).
    destruct (shape_targets_ok W V regex back A st D CS R TS PT i s GS) as (l & EL & _). exists l. exact EL. }
  split; [apply (aconformance_exists W V regex A st rank D CS RK T R FC FT)|]. split.
  - destruct (process_exists W (ir_schema st) (targets_or_none W back (v_type V) (v_sub V) st) fuel (by_level (level_schema st) ls) empty_cache) as (r & P). exists r. eapply validates_run; eassumption.
  - intros C r HC VR. destruct VR as [r NO _|st' g' ls' level i E' TL' H K P|st' g' ls' r E' TL' _ P].
    + destruct (NO _ E).
    + assert (X : Ok (st', g') = Ok (st, g)) by (rewrite <- E, <- E'; reflexivity). injection X as -> ->. assert (ls' = ls) as -> by congruence. destruct (OKT level i H K) as (l & X). congruence.
    + assert (X : Ok (st', g') = Ok (st, g)) by (rewrite <- E, <- E'; reflexivity). injection X as -> ->. assert (ls' = ls) as -> by congruence.
      apply (report_ok W V regex back A st rank D CS RK T R FC FT TS PT fuel (by_level (level_schema st) ls) DE LV C r HC P).
Qed.
Print Assumptions C71_report_partial.

(** conformance is determined by the shapes *)
Theorem C71_one_meaning W V regex A rank C C' : distinct A -> well_written regex A -> ranked A rank -> tidy A -> within_reach W V A ->
  flat_classes (v_sub V) (w_graph W) -> tests_fit W V -> aconformance W V A C -> aconformance W V A C' ->
  forall id a t, In (id, a) A -> C id t <-> C' id t.
Proof.
  intros D WW RK T R FC FT. pose proof (ranked_not_recursive A rank RK) as NR.
  destruct (compile_cases regex (fun _ => []) (fuel_for A) A D (le_n _)) as [(st & g & E & CS & LC & _)|[_ [B|B]]]; [|contradiction|contradiction].
  apply (aconformance_unique W V regex A st rank D CS RK T R FC FT).
Qed.
Print Assumptions C71_one_meaning.

(** schemas that are not well written or recursive give an error, before any data is looked at *)
Theorem C71_rejects W V regex scc fuel back A r : distinct A -> fuel_for A <= fuel -> ~ (well_written regex A /\ ~ arecursive A) ->
  validates W back (v_type V) (v_sub V) regex scc fuel A r -> r = Err.
Proof.
  intros D FU N H. destruct (C69_accepts_iff regex scc fuel A D FU) as [X [Y|Y]]; [destruct (N (proj1 X Y))|]. destruct H as [r _ ->|st g ls level i E|st g ls r E]; [rewrite Y; reflexivity|congruence|congruence].
Qed.
Print Assumptions C71_rejects.

(** a target that is not well written ends the run without a report, although the schema is taken *)
Definition wrong_ast : ast := [(ex_name 1, mkAshape None [] [ex_name 2] [TgWrong (TBnode 1)] 0 None); (ex_name 2, mkAshape (Some (PPred 5)) [] [] [] 0 None)].
Theorem C71_wrong_target_refuted : exists A, distinct A /\ well_written (fun _ => true) A /\ ~ arecursive A /\
  forall W back type sub, exists r, validates W back type sub (fun _ => true) (fun _ => []) 6 A r /\ r = Panic.
Proof.
  exists wrong_ast. refine (conj _ (conj _ (conj _ _))).
  - unfold distinct. cbn. repeat constructor; cbn; intuition discriminate.
  - destruct (C69_accepts_iff (fun _ => true) (fun _ => []) 6 wrong_ast) as [X _].
    + unfold distinct. cbn. repeat constructor; cbn; intuition discriminate.
    + unfold fuel_for. cbn. lia.
    + apply X. eexists. eexists. vm_compute. reflexivity.
  - apply (ranked_not_recursive wrong_ast (fun t => if term_eqb t (ex_name 1) then 1 else 0)). intros id a j [H|[H|[]]] J; injection H as <- <-; cbn in J; [destruct J as [<-|[]]|destruct J]. vm_compute. lia.
  - intros W back type sub. exists Panic. split; [|reflexivity]. eapply (validates_panic W back type sub _ _ _ _ _ _ _ [0] 0); [vm_compute; reflexivity|vm_compute; reflexivity| | |vm_compute; reflexivity]; vm_compute; auto.
Qed.
Print Assumptions C71_wrong_target_refuted.

(** the hypotheses of C71_report_partial can be met *)
Definition w_ast : ast :=
  [(ex_name 1, mkAshape None [] [ex_name 2] [TgClass (TIri 10)] 0 None);
   (ex_name 2, mkAshape (Some (PPred 5)) [AMinCount 1; ANode (ex_name 3)] [] [] 0 None);
   (ex_name 3, mkAshape None [AClass (TIri 13); AMinCount 1] [] [] 0 None)].
Definition w_data : graph := [(TIri 1, 200%N, TIri 10); (TIri 1, 5%N, TBnode 2); (TBnode 2, 200%N, TIri 12); (TIri 12, 201%N, TIri 13)].
Definition w_world : world :=
  mkWorld w_data (fun l => l) (fun n => Some n) (fun _ _ => None) (fun _ => None) (fun k v => match decode k with XClass c => class_fn w_data 200 201 c v | _ => false end) (fun _ => []).
Definition w_rank (t : term) : nat := if term_eqb t (ex_name 1) then 2 else if term_eqb t (ex_name 2) then 1 else 0.
Lemma w_sub x y : subclass 201 w_data x y -> x = y \/ (x = TIri 12 /\ y = TIri 13).
Proof. intros H. apply clos_rt_rt1n in H. induction H as [x|x y z H K IH]; [auto|]. cbn in H. tell2; subst; auto. match goal with X : _ /\ _ |- _ => destruct X; discriminate end. Qed.
Example C71_met : distinct w_ast /\ well_written (fun _ => true) w_ast /\ ranked w_ast w_rank /\ tidy w_ast /\ within_reach w_world t_voc w_ast /\
  v_type t_voc <> v_sub t_voc /\ flat_classes (v_sub t_voc) (w_graph w_world) /\ tests_fit w_world t_voc /\
  (forall id a tg, In (id, a) w_ast -> In tg (a_targets a) -> proper_target (fun n => n) tg /\ shallow_target t_voc (w_graph w_world) tg) /\
  (forall id a, In (id, a) w_ast -> w_rank id < 5).
Proof.
  assert (ID : forall t, object_of w_world t = Some t) by (intros [n|n|n]; reflexivity).
  refine (conj _ (conj _ (conj _ (conj _ (conj _ (conj _ (conj _ (conj _ (conj _ _))))))))).
  - unfold distinct. cbn. repeat constructor; cbn; intuition discriminate.
  - destruct (C69_accepts_iff (fun _ => true) (fun _ => []) 6 w_ast) as [X _].
    + unfold distinct. cbn. repeat constructor; cbn; intuition discriminate.
    + unfold fuel_for. cbn. lia.
    + apply X. eexists. eexists. vm_compute. reflexivity.
  - intros id a j [H|[H|[H|[]]]] J; injection H as <- <-; cbn in J; intuition (subst; vm_compute; lia).
  - intros id a [H|[H|[H|[]]]]; injection H as <- <-; cbn; (refine (conj _ (conj _ _))); intros; intuition (try discriminate); match goal with H : _ = _ |- _ => injection H as <- end; lia.
  - split.
    + intros s p o H. cbn in H. tell2; exact Logic.I.
    + intros l. reflexivity.
    + intros n. discriminate.
    + intros id t t' _ _. rewrite !ID. congruence.
    + intros id a p [H|[H|[H|[]]]] E; injection H as <- <-; cbn in E; try discriminate. injection E as <-. cbn. refine (conj Logic.I (conj eq_refl (conj eq_refl _))). intros ig H. intuition discriminate.
    + intros id a c t _ [H|[H|[H|[]]]] IC K; injection H as <- <-; cbn in IC; intuition (subst; destruct K).
    + intros id a p t x N [H|[H|[H|[]]]] E; injection H as <- <-; cbn in E; try discriminate. injection E as <-. cbn. intros <-.
      assert (X : forall id t, needed t_voc (w_graph w_world) w_ast id t -> ~ literal t).
      { clear. intros id t H. induction H as [id a tg t I TG H|id a t j v H IH I J VN].
        - destruct I as [I|[I|[I|[]]]]; injection I as <- <-; cbn in TG; try destruct TG as [<-|[]]; try destruct TG. destruct H as (k & H & _). cbn in H. tell2; intros [].
        - destruct I as [I|[I|[I|[]]]]; injection I as <- <-; cbn in VN; [subst v; exact IH| |subst v; exact IH]. tell2; intros []. }
      apply (X _ _ N).
    + intros id a p t v w _ [H|[H|[H|[]]]] IC; injection H as <- <-; cbn in IC; intuition discriminate.
  - cbn. congruence.
  - intros a b c H K. cbn in H, K. tell2.
  - intros k v. cbn [w_world w_test w_graph]. destruct (decode k); [reflexivity| | |]; cbn; tauto.
  - intros id a tg [H|[H|[H|[]]]] IT; injection H as <- <-; cbn in IT; try destruct IT as [<-|[]]; try destruct IT. split; [intros []|]. intros t (k & H & K). apply w_sub in K. destruct K as [->|[_ K]]; [exact H|discriminate].
  - intros id a [H|[H|[H|[]]]]; injection H as <- <-; vm_compute; lia.
Qed.
