(** C72, C73: reading shapes graphs, and validating with the shapes of a shapes graph. *)
From Coq Require Import List Bool NArith ZArith Lia Permutation.
Import ListNotations.
From Verif Require Import PathModel PathSpec PathLemmas PathProps ProgModel ShaclModel ShaclSpec GraphModel GraphSpec LevelModel LevelSpec.
From Verif Require Import PathModel ShaclModel ShcModel ShcSpec ShcMeaning TgtModel TgtSpec TgtProps.
From Verif Require Import ReportModel ReportSpec ReportLemmas RdsModel RdsSpec RdsLemmas RdsWhole.

(** ** C72 *)
(** A well-formed shapes graph is read as it is written: every shape under its own name, with its path, its components, its
    property shapes, its targets, its severity and its reifier shapes.
    Full statement: also where sh:ignoredProperties meets sh:hasValue, sh:in or sh:deactivated, and for all nodes that the
    SHACL specification calls shapes. *)
Theorem C72_reads_partial ord L oc pat sev g : any_order ord -> well_formed L g -> booleans L -> ignored_alone g ->
  exists r n, NoDup (map fst r) /\ (forall t, In t (map fst r) <-> is_shape g t) /\
    (forall k id a, In (k, (id, a)) r -> id = k /\ describes L oc pat sev g k a) /\
    forall fuel, n <= fuel -> parse ord L oc pat sev g fuel = Ok r.
Proof. intros O W B I. exact (read_all ord L oc pat sev g O W B I). Qed.
Print Assumptions C72_reads_partial.

(** Whatever the graph: nothing is read under a name that is not that of a shape, no name is there twice, and no shape is
    lost. *)
Lemma each_fst {A B} (k : A -> res (A * B)) l r : (forall x y, k x = Ok y -> fst y = x) -> each k l = Ok r -> map fst r = l.
Proof.
  intro H. revert r. induction l as [|x l IH]; cbn; intros r E; [injection E as <-; reflexivity|].
  destruct (k x) as [y| | |] eqn:K; try discriminate. cbn in E. destruct (each k l) as [ys| | |]; try discriminate. cbn in E. injection E as <-.
  cbn. rewrite (H _ _ K), (IH ys); reflexivity.
Qed.
Lemma each_ok {A B} (k : A -> res B) l r : each k l = Ok r -> Forall2 (fun x y => k x = Ok y) l r.
Proof.
  revert r. induction l as [|x l IH]; cbn; intros r E; [injection E as <-; constructor|].
  destruct (k x) as [y| | |] eqn:K; try discriminate. cbn in E. destruct (each k l) as [ys| | |]; try discriminate. cbn in E. injection E as <-. constructor; auto.
Qed.
Section Names.
  Variable ord : list term -> list term.
  Variable g : graph.
  Hypothesis any : any_order ord.
  Lemma single_in p f t f' : single_value ord g p f = (Ok t, f') -> In (f, p, t) g /\ f' = f.
  Proof.
    unfold single_value. destruct (objects_for g f p) as [l| | |] eqn:E; try discriminate. destruct (ord l) as [|x m] eqn:O; [discriminate|]. intro H. injection H as <- <-.
    split; [|reflexivity]. apply (proj1 (objects_for_in g f p l x E)). apply (ord_in _ any). rewrite O. left. reflexivity.
  Qed.
  Lemma parse_list_sound fuel : forall visited f l f', parse_list ord g fuel visited f = (Ok l, f') -> rdf_list g f l.
  Proof.
    induction fuel as [|fuel IH]; intros visited f l f' E; cbn [parse_list] in E; [discriminate|].
    unfold pbind at 1, get_focus in E. destruct (term_eqb_spec f (TIri rdf_nil)) as [->|N]; [injection E as <- _; constructor|].
    unfold pbind at 1 in E. destruct (single_value ord g rdf_first f) as [[x| | |] f1] eqn:E1; try discriminate. apply single_in in E1. destruct E1 as [I1 ->].
    unfold pbind at 1 in E. destruct (single_value ord g rdf_rest f) as [[y| | |] f1] eqn:E2; try discriminate. apply single_in in E2. destruct E2 as [I2 ->].
    destruct (tmem y visited); [discriminate|]. unfold pbind at 1, set_focus in E. unfold pbind in E.
    destruct (parse_list ord g fuel (visited ++ [y]) y) as [[m| | |] f2] eqn:E3; try discriminate. injection E as <- _. econstructor; [exact I1|exact I2|]. exact (IH _ _ _ _ E3).
  Qed.
  Lemma parse_list_more n l : chain g n l -> forall fuel visited k f', parse_list ord g fuel visited n = (Ok k, f') -> k = l.
  Proof.
    intro C. induction C as [|n x r l H E F R C IH]; intros [|fuel] visited k f' P; cbn [parse_list] in P; try discriminate; unfold pbind at 1, get_focus in P.
    - injection P as <- _. reflexivity.
    - destruct (term_eqb_spec n (TIri rdf_nil)) as [->|_]; [congruence|]. unfold pbind at 1 in P. rewrite (single_only ord g any n rdf_first x E F) in P.
      unfold pbind at 1 in P. rewrite (single_only ord g any n rdf_rest r E R) in P. destruct (tmem r visited); [discriminate|]. unfold pbind at 1, set_focus in P. unfold pbind in P.
      destruct (parse_list ord g fuel (visited ++ [r]) r) as [[m| | |] f2] eqn:E3; try discriminate. injection P as <- _. f_equal. exact (IH _ _ _ _ E3).
  Qed.
  Lemma members_sound fuel p l t : list_members ord g fuel p = Ok l -> In t l -> exists s o ts, In (s, p, o) g /\ rdf_list g o ts /\ In t ts.
  Proof.
    unfold list_members. destruct (each _ _) as [ls| | |] eqn:E; try discriminate. intro H. injection H as <-. rewrite in_concat. intros (m & Im & It).
    apply each_ok in E. destruct (forall2_right _ _ _ _ E Im) as (o & Io & K). apply (ord_in _ any), plain_objects_in in Io. destruct Io as [_ (s & Io)].
    unfold the_list, list_parser, pbind, get_focus in K. destruct (parse_list ord g fuel [o] o) as [[ts| | |] f] eqn:P; try discriminate. cbn in K.
    exists s, o, ts. split; [exact Io|]. split; [exact (parse_list_sound _ _ _ _ _ P)|]. apply each_ok in K. destruct (forall2_right _ _ _ _ K It) as (x & Ix & Ex). destruct x; cbn in Ex; try discriminate; injection Ex as <-; exact Ix.
  Qed.
  Lemma members_complete fuel p l s o ts t : list_members ord g fuel p = Ok l -> In (s, p, o) g -> chain g o ts -> In t ts -> In t l.
  Proof.
    unfold list_members. destruct (each _ _) as [ls| | |] eqn:E; try discriminate. intro H. injection H as <-. intros I C It. rewrite in_concat. apply each_ok in E.
    destruct (forall2_left _ _ _ o E) as (m & Im & K).
    { apply (ord_in _ any), plain_objects_in. split; [|eauto]. inversion C as [|? ? ? ? _ FN]; subst; [exact (fun f => f)|]. destruct o; cbn in FN; try discriminate; exact (fun f => f). }
    exists m. split; [exact Im|]. unfold the_list, list_parser, pbind, get_focus in K. destruct (parse_list ord g fuel [o] o) as [[ts'| | |] f] eqn:P; try discriminate. cbn in K.
    rewrite (parse_list_more _ _ C _ _ _ _ P) in K. apply each_ok in K. destruct (forall2_left _ _ _ _ K It) as (x & Ix & Ex). destruct t; cbn in Ex; try discriminate; injection Ex as <-; exact Ix.
  Qed.
End Names.
Theorem C72_names ord L oc pat sev g fuel r : any_order ord -> parse ord L oc pat sev g fuel = Ok r ->
  NoDup (map fst r) /\ (forall t, In t (map fst r) -> is_shape g t) /\
  (forall t c, In c shape_classes -> In (t, rdf_type, TIri c) g -> In t (map fst r)) /\
  (forall t p o, In p target_predicates -> In (t, p, o) g -> In t (map fst r)) /\
  (forall s p t, In p expects_shape -> In (s, p, t) g -> ~ literal t -> In t (map fst r)) /\
  (forall s p o l t, In p expects_shapes -> In (s, p, o) g -> chain g o l -> In t l -> In t (map fst r)).
Proof.
  intros O P. unfold parse in P. destruct (candidates ord g fuel) as [l| | |] eqn:C; try discriminate. cbn in P.
  apply each_fst in P; [|intros x y E; destruct (fst (shape ord L oc pat sev g fuel x)); try discriminate; cbn in E; injection E as <-; reflexivity].
  rewrite P. unfold candidates in C.
  destruct (list_members ord g fuel sh_and) as [la| | |] eqn:Ea; try discriminate. destruct (list_members ord g fuel sh_or) as [lo| | |] eqn:Eo; try discriminate.
  destruct (list_members ord g fuel sh_xone) as [lx| | |] eqn:Ex; try discriminate. cbn [bind] in C. injection C as <-.
  split; [apply NoDup_rev, (ord_nodup _ O), tset_nodup|].
  assert (M : forall t, In t (rev (ord (tset (instances_of_class g sh_node_shape ++ instances_of_class g sh_property_shape ++ instances_of_class g sh_shape ++
                   subjects_with g sh_target_class ++ subjects_with g sh_target_subjects_of ++ subjects_with g sh_target_objects_of ++ subjects_with g sh_target_node ++
                   la ++ lo ++ plain_objects g sh_not ++ plain_objects g sh_property ++ plain_objects g sh_qualified ++ plain_objects g sh_node ++ lx ++
                   plain_objects g sh_reifier)))) <->
    (In (t, rdf_type, TIri sh_node_shape) g \/ In (t, rdf_type, TIri sh_property_shape) g \/ In (t, rdf_type, TIri sh_shape) g) \/
    ((exists o, In (t, sh_target_class, o) g) \/ (exists o, In (t, sh_target_subjects_of, o) g) \/ (exists o, In (t, sh_target_objects_of, o) g) \/ (exists o, In (t, sh_target_node, o) g)) \/
    (In t la \/ In t lo \/ In t lx) \/
    (~ literal t /\ ((exists s, In (s, sh_not, t) g) \/ (exists s, In (s, sh_property, t) g) \/ (exists s, In (s, sh_qualified, t) g) \/ (exists s, In (s, sh_node, t) g) \/ (exists s, In (s, sh_reifier, t) g)))).
  { intro t. rewrite <- in_rev, (ord_in _ O), tset_in, !in_app_iff, !plain_objects_in, !subjects_with_in. rewrite <- !(tmem_spec t (instances_of_class _ _)), !instances_in. tauto. }
  split; [|split; [|split; [|split]]].
  - intros t H. apply M in H. destruct H as [[H|[H|H]]|[[(o & H)|[(o & H)|[(o & H)|(o & H)]]]|[[H|[H|H]]|[N [(s & H)|[(s & H)|[(s & H)|[(s & H)|(s & H)]]]]]]]].
    1-3: left; eexists; split; [|exact H]; cbn; tauto.
    1-4: right; left; eexists; exists o; split; [|exact H]; cbn; tauto.
    1: apply (members_sound ord g O _ _ _ _ Ea) in H. 2: apply (members_sound ord g O _ _ _ _ Eo) in H. 3: apply (members_sound ord g O _ _ _ _ Ex) in H.
    1-3: destruct H as (s & o & ts & I & R & It); right; right; right; exists s; eexists; exists o, ts; split; [|split; [exact I|split; [exact R|exact It]]]; cbn; tauto.
    all: right; right; left; exists s; eexists; split; [|split; [exact H|exact N]]; cbn; tauto.
  - intros t c T I. apply M. destruct T as [<-|[<-|[<-|[]]]]; tauto.
  - intros t p o T I. apply M. right. left. destruct T as [<-|[<-|[<-|[<-|[]]]]]; eauto.
  - intros s p t T I N. apply M. right. right. right. split; [exact N|]. destruct T as [<-|[<-|[<-|[<-|[<-|[]]]]]]; eauto 7.
  - intros s p o l' t T I C It. apply M. right. right. left. destruct T as [<-|[<-|[<-|[]]]].
    + left. exact (members_complete ord g O _ _ _ _ _ _ _ Ea I C It).
    + right. left. exact (members_complete ord g O _ _ _ _ _ _ _ Eo I C It).
    + right. right. exact (members_complete ord g O _ _ _ _ _ _ _ Ex I C It).
Qed.
Print Assumptions C72_names.

(** ** C73 *)
(** the shapes of what the parser returns *)
Definition schema (r : list (term * (term * ashape))) : ast := map (fun x => (fst x, snd (snd x))) r.
(** From a shapes graph to a report: for a well-formed shapes graph without recursion the shapes are read, they are fit for
    compilation, and the report about the data has no results exactly if all nodes that are targets by the shapes graph
    conform.
    Full statement: as for C72 and C71, for all shapes graphs and data. *)
Theorem C73_report_partial ord L oc pat sev g W V regex scc back rank :
  any_order ord -> well_formed L g -> booleans L -> ignored_alone g -> usable L pat regex rank g ->
  exists r n, (forall fuel, n <= fuel -> parse ord L oc pat sev g fuel = Ok r) /\ spelled_out L oc pat sev g (schema r) /\
    (within_reach W V (schema r) -> v_type V <> v_sub V -> flat_classes (v_sub V) (w_graph W) -> tests_fit W V ->
     (forall s tg, declared_target L g s tg -> proper_target back tg /\ shallow_target V (w_graph W) tg) ->
     forall fuel, fuel_for (schema r) <= fuel -> (forall t, is_shape g t -> rank t < fuel) ->
     (exists C, aconformance W V (schema r) C) /\
     (exists o, validates W back (v_type V) (v_sub V) regex scc fuel (schema r) o) /\
     forall C o, aconformance W V (schema r) C -> validates W back (v_type V) (v_sub V) regex scc fuel (schema r) o ->
       exists l, o = Ok l /\
         (l = [] <-> forall s tg t, is_shape g s -> declared_target L g s tg -> is_target V (w_graph W) tg t -> C s t)).
Proof.
  intros O WF B I U. destruct (C72_reads_partial ord L oc pat sev g O WF B I) as (r & n & ND & M & D & E). exists r, n. split; [exact E|].
  assert (MF : map fst (schema r) = map fst r) by (unfold schema; rewrite map_map; reflexivity).
  assert (SO : spelled_out L oc pat sev g (schema r)).
  { split; [rewrite MF; exact ND|]. split; [intro t; rewrite MF; apply M|]. intros t a H. apply in_map_iff in H. destruct H as ((k & id & a') & E' & H). cbn in E'. injection E' as -> ->. apply (D _ _ _ H). }
  split; [exact SO|]. intros R NS FC FT PT fuel FU RK.
  destruct (C71_report_partial W V regex scc fuel back (schema r) rank (fit_distinct _ _ _ _ _ _ SO) (fit_written _ _ _ _ _ _ _ _ WF U SO) (fit_ranked _ _ _ _ _ _ _ _ WF U SO)
    (fit_tidy _ _ _ _ _ _ _ _ WF U SO) R NS FC FT) as (X & Y & Z).
  - intros id a tg H T. apply PT with (s := id). apply (d_targets _ _ _ _ _ _ _ (proj2 (proj2 SO) id a H)). exact T.
  - exact FU.
  - intros id a H. apply RK. apply SO. apply in_map_iff. exists (id, a). auto.
  - split; [exact X|]. split; [exact Y|]. intros C o HC V'. destruct (Z C o HC V') as (l & -> & K). exists l. split; [reflexivity|]. rewrite K. split.
    + intros H s tg t S T IT. apply SO in S. apply in_map_iff in S. destruct S as ((k & a) & E' & S). cbn in E'. subst k. eapply H; [exact S| |exact IT].
      apply (d_targets _ _ _ _ _ _ _ (proj2 (proj2 SO) s a S)). exact T.
    + intros H id a tg t S T IT. eapply H; [|apply (d_targets _ _ _ _ _ _ _ (proj2 (proj2 SO) id a S)); exact T|exact IT]. apply SO. apply in_map_iff. exists (id, a). auto.
Qed.
Print Assumptions C73_report_partial.

(** ** examples and refutations *)
Definition ex_lits : lits :=
  mkLits Some (fun n => Some (Z.of_N n)) (fun n => if N.eqb n 0 then Some false else if N.eqb n 1 then Some true else None) (fun n => n) Some
         (fun n => if N.eqb n 0 then Some false else if N.eqb n 1 then Some true else None).
Lemma ex_booleans : booleans ex_lits.
Proof. intros n b H. exists n. split; [reflexivity|exact H]. Qed.
Definition ex_oc (x : other) : N := 0.
Definition ex_pat (n : N) (f : option N) : N := n.
Definition ex_sev (s : option severity) : N := 0.
Notation ex_read g := (parse id_ord ex_lits ex_oc ex_pat ex_sev g 20).
Definition S0 : term := TIri 100.

(** two values for sh:path: which one is read depends on the order in which a set is walked *)
Definition two_paths : graph := [(S0, rdf_type, TIri sh_property_shape); (S0, sh_path, TIri 101); (S0, sh_path, TIri 102)].
Theorem C72_order_refuted : exists g, rdf_graph g /\ exists ord ord' r r', any_order ord /\ any_order ord' /\
  parse ord ex_lits ex_oc ex_pat ex_sev g 20 = Ok r /\ parse ord' ex_lits ex_oc ex_pat ex_sev g 20 = Ok r' /\ map (fun x => a_path (snd x)) (schema r) <> map (fun x => a_path (snd x)) (schema r').
Proof.
  exists two_paths. split; [intros s p o [H|[H|[H|[]]]]; injection H as <- <- <-; exact Logic.I|].
  exists id_ord, (@rev term). eexists. eexists. split; [exact id_any|]. split; [intro l; symmetry; apply Permutation_rev|]. split; [vm_compute; reflexivity|]. split; [vm_compute; reflexivity|]. discriminate.
Qed.
Print Assumptions C72_order_refuted.

(** a shape that only has parameters is a shape by the specification, but it is not read *)
Definition parameter_only : graph := [(S0, sh_path, TIri 101); (S0, sh_min_count, TLit 1)].
Theorem C72_parameters_refuted : exists g t, is_shape_by_spec g t /\ ex_read g = Ok [].
Proof. exists parameter_only, S0. split; [right; exists sh_min_count, (TLit 1); split; cbn; tauto|vm_compute; reflexivity]. Qed.
Print Assumptions C72_parameters_refuted.

(** sh:in that is not a list, but a property shape: the shape that is read is the other one, under the name of the first *)
Definition other_shape : graph := [(S0, rdf_type, TIri sh_node_shape); (S0, sh_in, TIri 101); (TIri 101, sh_path, TIri 102); (TIri 101, sh_min_count, TLit 1)].
Theorem C72_name_refuted : exists g r k id a, rdf_graph g /\ ex_read g = Ok r /\ In (k, (id, a)) r /\ id <> k /\ a_path a <> None /\ none g k sh_path.
Proof.
  exists other_shape. eexists. exists S0, (TIri 101), (mkAshape (Some (PPred 102)) [AMinCount 1] [] [] 0 None).
  split; [intros s p o [H|[H|[H|[H|[]]]]]; injection H as <- <- <-; exact Logic.I|]. split; [vm_compute; reflexivity|]. split; [left; reflexivity|]. split; [discriminate|]. split; [discriminate|].
  intros x [H|[H|[H|[H|[]]]]]; discriminate.
Qed.
Print Assumptions C72_name_refuted.

(** sh:languageIn with an IRI: a panic *)
Definition language_iri : graph := [(S0, rdf_type, TIri sh_node_shape); (S0, sh_language_in, TBnode 1); (TBnode 1, rdf_first, TIri 101); (TBnode 1, rdf_rest, TIri rdf_nil)].
Theorem C72_language_refuted : exists g, rdf_graph g /\ ex_read g = Panic.
Proof. exists language_iri. split; [intros s p o [H|[H|[H|[H|[]]]]]; injection H as <- <- <-; exact Logic.I|vm_compute; reflexivity]. Qed.
Print Assumptions C72_language_refuted.

(** sh:in with a blank node: the member is left out, and other nodes than before conform *)
Definition in_blank : graph := [(S0, rdf_type, TIri sh_node_shape); (S0, sh_in, TBnode 1); (TBnode 1, rdf_first, TBnode 2); (TBnode 1, rdf_rest, TIri rdf_nil)].
Theorem C72_members_refuted : exists g a, ex_read g = Ok [(S0, (S0, a))] /\ In (AIn []) (a_comps a) /\ ~ declared ex_lits ex_oc ex_pat g S0 (AIn []).
Proof.
  exists in_blank. eexists. split; [vm_compute; reflexivity|]. split; [left; reflexivity|]. intros (o & [H|[H|[H|[H|[]]]]] & ts & R & F); try discriminate. injection H as <-.
  inversion F; subst. inversion R.
Qed.
Print Assumptions C72_members_refuted.

Ltac each_triple H := cbn [In] in H; repeat (destruct H as [H|H]); try contradiction.
Ltac well := constructor;
  [let H := fresh in intros s p o H; each_triple H; injection H as <- <- <-; exact Logic.I
  |let H := fresh in intros x H; each_triple H; discriminate
  |let H := fresh in let T := fresh in intros s p o K H T; each_triple H; injection H as <- <- <-; cbn [In kinds] in T; repeat (destruct T as [T|T]); try contradiction; try discriminate T; injection T as <-
  |let T := fresh in let H := fresh in let H' := fresh in intros s p o o' T H H'; each_triple H; injection H as <- <- <-; try (exfalso; cbn [In singles] in T; repeat (destruct T as [T|T]); try contradiction; discriminate T); each_triple H'; try discriminate H'; injection H'; congruence].

(** sh:ignoredProperties: what is read after it is lost *)
Definition ignored_lost : graph :=
  [(S0, rdf_type, TIri sh_node_shape); (S0, sh_target_node, TIri 101); (S0, sh_closed, TLit 0); (S0, sh_ignored, TIri rdf_nil); (S0, sh_has_value, TIri 102)].
Lemma ignored_lost_well : well_formed ex_lits ignored_lost.
Proof.
  well.
  - exists (TIri 101). reflexivity.
  - exists false. reflexivity.
  - exists []. split; [constructor|intros x []].
  - exists (VIri (IriFull 102)). reflexivity.
Qed.
Theorem C72_ignored_refuted : exists g a c, well_formed ex_lits g /\ ex_read g = Ok [(S0, (S0, a))] /\ declared ex_lits ex_oc ex_pat g S0 c /\ forall c', In c' (a_comps a) -> ~ akin c c'.
Proof.
  exists ignored_lost. eexists. exists (AHasValue (VIri (IriFull 102))). split; [exact ignored_lost_well|]. split; [vm_compute; reflexivity|]. split.
  - exists (TIri 102). split; [cbn; tauto|reflexivity].
  - intros c' [<-|[]] [H|(t & qmin & qmax & d & sib & sib' & H & _)]; discriminate.
Qed.
Print Assumptions C72_ignored_refuted.

(** the hypotheses of C72_reads_partial can be met: a closed shape with a property shape, which has a list of alternatives *)
Definition read_ex : graph :=
  [(S0, rdf_type, TIri sh_node_shape); (S0, sh_target_class, TIri 110); (S0, sh_property, TBnode 1); (S0, sh_closed, TLit 1); (S0, sh_ignored, TBnode 3);
   (TBnode 3, rdf_first, TIri rdf_type); (TBnode 3, rdf_rest, TIri rdf_nil);
   (TBnode 1, sh_path, TIri 105); (TBnode 1, sh_min_count, TLit 1); (TBnode 1, sh_or, TBnode 2); (TBnode 2, rdf_first, TIri 104); (TBnode 2, rdf_rest, TIri rdf_nil);
   (TIri 104, sh_has_value, TLit 7); (TIri 104, sh_severity, TIri sh_warning)].
Ltac only_ := let x := fresh in let H := fresh in intro x; split; [intro H; each_triple H; try discriminate H; injection H; congruence|intros ->; cbn; tauto].
Lemma read_ex_well : well_formed ex_lits read_ex.
Proof.
  well.
  - exists 110%N. reflexivity.
  - exists (TBnode 1). split; [reflexivity|exact (fun f => f)].
  - exists true. reflexivity.
  - exists [TIri rdf_type]. split; [|intros x [<-|[]]; exists rdf_type; reflexivity]. apply (chain_cons _ (TBnode 3) (TIri rdf_type) (TIri rdf_nil)); [discriminate|reflexivity|only_|only_|constructor].
  - exists (PPred 105). constructor.
  - exists 1%Z. reflexivity.
  - exists [TIri 104]. split; [|intros x [<-|[]]; exists (TIri 104); split; [reflexivity|exact (fun f => f)]]. apply (chain_cons _ (TBnode 2) (TIri 104) (TIri rdf_nil)); [discriminate|reflexivity|only_|only_|constructor].
  - exists (VLit 7). exists 7%N. split; reflexivity.
  - exists sh_warning. reflexivity.
Qed.
Lemma read_ex_alone : ignored_alone read_ex.
Proof.
  intros p o T. split.
  - intro H. cbn [In read_late] in T. repeat (destruct T as [<-|T]); try contradiction; each_triple H; discriminate H.
  - intros s o' H H'. cbn [In read_late] in T. repeat (destruct T as [<-|T]); try contradiction; each_triple H; try discriminate H; injection H as <- <-; each_triple H'; discriminate H'.
Qed.
Example C72_met : any_order id_ord /\ well_formed ex_lits read_ex /\ booleans ex_lits /\ ignored_alone read_ex /\ ex_read read_ex =
  Ok [(S0, (S0, mkAshape None [AClosed true [rdf_type]] [TBnode 1] [TgClass (TIri 110)] 0 None));
      (TIri 104, (TIri 104, mkAshape None [AHasValue (VLit 7)] [] [] 0 None));
      (TBnode 1, (TBnode 1, mkAshape (Some (PPred 105)) [AMinCount 1; AOr [TIri 104]] [] [] 0 None))].
Proof. refine (conj id_any (conj read_ex_well (conj ex_booleans (conj read_ex_alone _)))). vm_compute. reflexivity. Qed.

(** the hypotheses of C73_report_partial can be met *)
Definition shapes_ex : graph := [(S0, sh_target_class, TIri 110); (S0, sh_property, TBnode 1); (TBnode 1, sh_path, TIri 105); (TBnode 1, sh_min_count, TLit 1)].
Lemma shapes_ex_well : well_formed ex_lits shapes_ex.
Proof.
  well.
  - exists 110%N. reflexivity.
  - exists (TBnode 1). split; [reflexivity|exact (fun f => f)].
  - exists (PPred 105). constructor.
  - exists 1%Z. reflexivity.
Qed.
Lemma shapes_ex_alone : ignored_alone shapes_ex.
Proof.
  intros p o T. split.
  - intro H. cbn [In read_late] in T. repeat (destruct T as [<-|T]); try contradiction; each_triple H; discriminate H.
  - intros s o' H H'. each_triple H; discriminate H.
Qed.
Definition shapes_rank (t : term) : nat := match t with TIri _ => 1 | _ => 0 end.
Lemma shapes_ex_usable : usable ex_lits ex_pat (fun _ => true) shapes_rank shapes_ex.
Proof.
  constructor.
  - intros s j [(p & T & H)|[(p & o & l & T & H & _)|((o & H & _) & _)]].
    + each_triple H; injection H as <- <- <-; try (exfalso; cbn [In expects_shape] in T; repeat (destruct T as [T|T]); try contradiction; discriminate T). cbn. lia.
    + exfalso. each_triple H; injection H as <- <- <-; cbn [In expects_shapes] in T; repeat (destruct T as [T|T]); try contradiction; discriminate T.
    + each_triple H; discriminate H.
  - intros s j H. each_triple H; try discriminate H. injection H as <- <-. exists (TIri 105). cbn. tauto.
  - reflexivity.
  - intros s z [(o & H & K)|(o & H & K)]; each_triple H; try discriminate H. injection H as <- <-. cbn in K. injection K as <-. lia.
  - intros s j H. each_triple H; discriminate H.
Qed.
Definition data_ex : graph := [(TIri 1, rdf_type, TIri 110); (TIri 1, 105%N, TIri 2)].
Definition world_ex : world :=
  mkWorld data_ex (fun l => l) (fun n => Some n) (fun _ _ => None) (fun _ => None) (fun k v => match decode k with XClass c => class_fn data_ex rdf_type 80 c v | _ => false end) (fun _ => []).
Definition voc_ex : vocabulary := mkVoc rdf_type 80 (fun _ _ => True).
Definition ast_ex : ast := [(S0, mkAshape None [] [TBnode 1] [TgClass (TIri 110)] 0 None); (TBnode 1, mkAshape (Some (PPred 105)) [AMinCount 1] [] [] 0 None)].
Lemma sub_ex x y : subclass 80 data_ex x y -> x = y.
Proof. intros H. apply Operators_Properties.clos_rt_rt1n in H. destruct H as [|y z H K]; [reflexivity|]. each_triple H; discriminate H. Qed.
Lemma reach_ex : within_reach world_ex voc_ex ast_ex.
Proof.
  assert (ID : forall t, object_of world_ex t = Some t) by (intros [n|n|n]; reflexivity).
  split.
  - intros s p o H. each_triple H; injection H as <- <- <-; exact Logic.I.
  - intros l. reflexivity.
  - intros n. discriminate.
  - intros id t t' _ _. rewrite !ID. congruence.
  - intros id a p [H|[H|[]]] E; injection H as <- <-; cbn in E; try discriminate. injection E as <-. cbn. refine (conj Logic.I (conj eq_refl (conj eq_refl _))). intros ig H. intuition discriminate.
  - intros id a c t _ [H|[H|[]]] IC K; injection H as <- <-; cbn in IC; intuition (subst; destruct K).
  - intros id a p t x N [H|[H|[]]] E; injection H as <- <-; cbn in E; try discriminate. injection E as <-. cbn. intros <-.
    assert (X : forall id t, needed voc_ex (w_graph world_ex) ast_ex id t -> ~ literal t).
    { clear. intros id t H. induction H as [id a tg t I TG H|id a t j v H IH I J VN].
      - destruct I as [I|[I|[]]]; injection I as <- <-; cbn in TG; try destruct TG as [<-|[]]; try destruct TG. destruct H as (k & H & _). each_triple H; try discriminate H. injection H as <- <-. exact (fun f => f).
      - destruct I as [I|[I|[]]]; injection I as <- <-; cbn in VN; [subst v; exact IH|destruct J]. }
    apply (X _ _ N).
  - intros id a p t v w _ [H|[H|[]]] IC; injection H as <- <-; cbn in IC; intuition discriminate.
Qed.
Example C73_met : exists r, ex_read shapes_ex = Ok r /\ any_order id_ord /\ well_formed ex_lits shapes_ex /\ booleans ex_lits /\ ignored_alone shapes_ex /\
  usable ex_lits ex_pat (fun _ => true) shapes_rank shapes_ex /\ within_reach world_ex voc_ex (schema r) /\ v_type voc_ex <> v_sub voc_ex /\
  flat_classes (v_sub voc_ex) (w_graph world_ex) /\ tests_fit world_ex voc_ex /\
  (forall s tg, declared_target ex_lits shapes_ex s tg -> proper_target (fun n => n) tg /\ shallow_target voc_ex (w_graph world_ex) tg) /\
  fuel_for (schema r) <= 20 /\ (forall t, is_shape shapes_ex t -> shapes_rank t < 20).
Proof.
  eexists. split; [vm_compute; reflexivity|].
  refine (conj id_any (conj shapes_ex_well (conj ex_booleans (conj shapes_ex_alone (conj shapes_ex_usable (conj reach_ex (conj _ (conj _ (conj _ (conj _ (conj _ _))))))))))).
  - discriminate.
  - intros a b c H. cbn in H. each_triple H; discriminate H.
  - intros k v. cbn. destruct (decode k); [reflexivity|..]; split; auto.
  - intros s tg H. destruct tg as [t|t|p|p|t|t]; cbn [declared_target] in H.
    + destruct H as (o & H & _). each_triple H; discriminate H.
    + destruct H as (i & -> & o & H & E). unfold is_iri in E. subst o. each_triple H; try discriminate H. injection H as <- <-. split; [exact (fun f => f)|].
      intros t (k & H & K). apply sub_ex in K. subst k. exact H.
    + destruct H as (o & H & _). each_triple H; discriminate H.
    + destruct H as (o & H & _). each_triple H; discriminate H.
    + destruct H as (_ & H & _). each_triple H; discriminate H.
    + destruct H.
  - vm_compute. lia.
  - intros [n|n|n] _; cbn; lia.
Qed.
(** the loss is seen in the report: the target does not conform to the shape that the graph describes, and there are no
    results *)
Definition ast_lost : ast := [(S0, mkAshape None [AClosed false []; AHasValue (VIri (IriFull 102))] [] [TgNode (TIri 101)] 0 None)].
Ltac not_there K := let o := fresh "o" in let X := fresh "X" in destruct K as (o & X & ?); each_triple X; discriminate X.
Theorem C73_ignored_refuted : exists g W A r, well_formed ex_lits g /\ ex_read g = Ok r /\ spelled_out ex_lits ex_oc ex_pat ex_sev g A /\
  validates W (fun n => n) rdf_type 80 (fun _ => true) (fun _ => []) 20 (schema r) (Ok []) /\
  forall C, aconformance W voc_ex A C -> exists s tg t, is_shape g s /\ declared_target ex_lits g s tg /\ is_target voc_ex (w_graph W) tg t /\ ~ C s t.
Proof.
  exists ignored_lost, (mkWorld [] (fun l => l) Some (fun _ _ => None) (fun _ => None) (fun _ _ => false) (fun _ => [])), ast_lost. eexists.
  split; [exact ignored_lost_well|]. split; [vm_compute; reflexivity|]. split; [|split].
  - split; [repeat constructor; intros []|]. split.
    + intro t. split.
      * intros [<-|[]]. left. exists sh_node_shape. split; cbn; tauto.
      * intros H. left. cbn [fst ast_lost]. destruct H as [(c & T & H)|[(p & o & T & H)|[(s & p & T & H & _)|(s & p & o & l & T & H & _)]]]; each_triple H; injection H; intros; subst; try reflexivity;
          exfalso; cbn [In expects_shape expects_shapes] in T; repeat (destruct T as [T|T]); try contradiction; discriminate T.
    + intros t a [H|[]]. injection H as <- <-. constructor; cbn [a_path a_comps a_props a_targets a_severity a_reifier].
      * intros o H. each_triple H; discriminate H.
      * intros c [<-|[<-|[]]].
        -- split; [exists (TLit 0); split; [cbn; tauto|reflexivity]|]. left. exists (TIri rdf_nil). split; [cbn; tauto|]. exists []. split; constructor.
        -- exists (TIri 102). split; [cbn; tauto|reflexivity].
      * intros c H. exists c. split; [|left; reflexivity]. destruct c as [t|[d|d]|k|k|z|z|b|[p|p]|[p|p]|[|] [p|p]|l|l|l|t|t|b l|v|l|t qmin qmax d sib|b]; cbn [declared] in H; try contradiction; try not_there H.
        -- destruct H as (x & f & H & _). not_there H.
        -- destruct H as (x & H & _). destruct x as [k0|z|z|l|[| | |] n]; cbn [declared_other] in H; not_there H.
        -- destruct H as ((o & H & B) & [(o' & H' & l' & K & F)|[N _]]); [|exfalso; apply (N (TIri rdf_nil)); cbn; tauto].
           each_triple H; try discriminate H. injection H as <-. each_triple H'; try discriminate H'. injection H' as <-. unfold is_bool in B. cbn in B. injection B as <-.
           inversion K as [E1 E2|? ? ? ? X]; [subst l'|each_triple X; discriminate X]. inversion F. subst l. left. reflexivity.
        -- destruct H as (o & H & K). each_triple H; try discriminate H. injection H as <-. cbn in K. subst v. right. left. reflexivity.
        -- destruct H as (H & _). not_there H.
      * intros j. split; [intros []|]. intros H. each_triple H; discriminate H.
      * intros x. split.
        -- intros [<-|[]]. exists (TIri 101). split; [cbn; tauto|reflexivity].
        -- intros H. left. destruct x as [t|t|p|p|t|t]; cbn [declared_target] in H; try not_there H.
           ++ destruct H as (o & H & E). each_triple H; try discriminate H. injection H as <-. cbn in E. congruence.
           ++ destruct H as (i & _ & H). not_there H.
           ++ destruct H.
      * left. split; [|reflexivity]. intros o H. each_triple H; discriminate H.
      * reflexivity.
  - eapply validates_run; [vm_compute; reflexivity|vm_compute; reflexivity|..].
    + intros level i [<-|[]] [<-|[]]. eexists. vm_compute. reflexivity.
    + change (Ok []) with (bind (Ok []) (fun b : list ShaclModel.result => Ok ([] ++ b))). eapply process_level; [apply ProgLemmas.run_pool|vm_compute; reflexivity|constructor].
  - intros C HC. exists S0, (TgNode (TIri 101)), (TIri 101). split; [left; exists sh_node_shape; split; cbn; tauto|]. split; [exists (TIri 101); split; [cbn; tauto|reflexivity]|]. split; [reflexivity|].
    intro X. apply (HC S0 _ (TIri 101) (or_introl eq_refl)) in X. destruct X as [X|[X _]].
    + cbn in X. intuition discriminate.
    + destruct (X (AHasValue (VIri (IriFull 102)))) as (v & Hv & N); [cbn; tauto|]. cbn in Hv, N. subst v. discriminate N.
Qed.
Print Assumptions C73_ignored_refuted.
