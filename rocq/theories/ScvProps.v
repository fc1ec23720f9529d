(** Converting SHACL shapes to ShEx: which schemas are converted, what the ShEx schema asks for, and how far that is what
    the SHACL shapes ask for (C86). *)
From Coq Require Import List Bool NArith ZArith Arith Lia Relations Permutation.
Import ListNotations.
From Verif Require Import EngineModel CompModel CompSpec.
From Verif Require Import PathModel PathSpec ShaclModel ShaclSpec ScvModel ScvSpec ScvLemmas.
From Verif Require ShcModel ShcLemmas ShcSpec ShcMeaning MatLemmas MatFinal TxFinal.

Section Props.
  Variable add : bool.
  Variable label : term -> nat.
  Variable number : N -> nat.
  Variable datatype_kind : N -> nat.
  Variable values_kind : list N -> nat.
  Variable rdf_type : N.
  Variable sch : ShaclModel.schema.
  Variable targets : nat -> list ShcModel.target.
  Notation convert := (convert add label number datatype_kind values_kind rdf_type sch targets).

  (** A schema is converted exactly when its node shapes are named by IRIs or blank nodes and all properties they list are
      property shapes with a predicate for a path and with no components but sh:or, sh:datatype and sh:class of an IRI. *)
  Theorem C86_converts : (exists D, convert = Ok D) <-> convertible add sch targets.
  Proof. apply convert_ok. Qed.

  Variable node : term -> nat.
  Variable eval : nat -> nat -> bool.
  Variable ext : nat -> bool.
  Variable W : world.
  Hypothesis SW : same_world node label number datatype_kind values_kind eval W.
  Notation shex := (fun D n s => has_shape eval ext (translated node number (w_graph W)) [] D (node n) (label (s_id s))).

  (** A node has the ShEx shape exactly when it has one value for every property, for which the first component holds, and,
      when classes are added, one type, which is a target class.  The full statement does not ask for [separate] properties: it is
      refuted below. *)
  Theorem C86_meaning_partial (D : aschema) (i : nat) (s : ShaclModel.shape) (n : term) :
    convert = Ok D -> separate add rdf_type sch -> well_named sch -> In (i, s) sch -> s_path s = None ->
    shex D n s <-> asks add rdf_type W sch targets i s n.
  Proof. exact (meaning add label number datatype_kind values_kind rdf_type sch targets node eval ext W SW D i s n). Qed.

  (** When classes are added, no node has a shape that has no target class: the set of values is there, and empty. *)
  Theorem C86_no_class_partial (D : aschema) (i : nat) (s : ShaclModel.shape) (n : term) :
    convert = Ok D -> separate add rdf_type sch -> well_named sch -> In (i, s) sch -> s_path s = None ->
    add = true -> (forall c, ~ In (ShcModel.TgClass c) (targets i)) -> ~ shex D n s.
  Proof. intros C SP WN I NS A H X. apply (C86_meaning_partial D i s n C SP WN I NS) in X. destruct X as [_ X]. destruct (X A) as (v & _ & J). exact (H v J). Qed.

  Variable sub_class_of : N.
  Variable C : nat -> term -> Prop.

  (** Nodes with the ShEx shape conform to the SHACL shape, if that one has nothing but property shapes with one component
      at most, of those that test values.  The full statement, for all schemas that are converted, is refuted below. *)
  Theorem C86_sound_partial (D : aschema) (i : nat) (s : ShaclModel.shape) (n : term) :
    convert = Ok D -> separate add rdf_type sch -> well_named sch -> In (i, s) sch -> s_path s = None ->
    conformance W sch C -> tests_classes rdf_type W sub_class_of -> bare sch s ->
    shex D n s -> C i n.
  Proof.
    intros CV SP WN I NS CF TC B X. apply (C86_meaning_partial D i s n CV SP WN I NS) in X.
    exact (sound rdf_type sub_class_of W sch C CF add targets i s n (proj1 C86_converts (ex_intro _ D CV)) (proj1 WN) I NS B TC X).
  Qed.
  (** And nodes that conform have the ShEx shape, if moreover nothing is deactivated, they have just one value for every
      property, nothing has two types, and there are no subclasses.  The full statement is refuted below. *)
  Theorem C86_complete_partial (D : aschema) (i : nat) (s : ShaclModel.shape) (n : term) :
    convert = Ok D -> separate add rdf_type sch -> well_named sch -> In (i, s) sch -> s_path s = None ->
    conformance W sch C -> tests_classes rdf_type W sub_class_of -> bare sch s -> active sch s ->
    flat_types rdf_type W sub_class_of -> has_single_values W sch s n ->
    (add = true -> one_value W n rdf_type (fun c => In (ShcModel.TgClass c) (targets i))) ->
    C i n -> shex D n s.
  Proof.
    intros CV SP WN I NS CF TC B A FT SV AD X. apply (C86_meaning_partial D i s n CV SP WN I NS).
    exact (complete rdf_type sub_class_of W sch C CF add targets i s n (proj1 WN) I NS B A TC FT SV AD X).
  Qed.
End Props.
Print Assumptions C86_converts.
Print Assumptions C86_meaning_partial.
Print Assumptions C86_no_class_partial.
Print Assumptions C86_sound_partial.
Print Assumptions C86_complete_partial.

(** ** examples: terms and IRIs are numbered, datatypes have even numbers and sets of values odd ones *)
Definition nd (t : term) : nat := N.to_nat (ShcModel.enc t).
Definition nu (p : N) : nat := N.to_nat p.
Definition dk (d : N) : nat := N.to_nat (2 * d).
Definition bits (l : list N) : N := fold_right (fun c b => N.setbit b c) 0%N l.
Definition vk (l : list N) : nat := N.to_nat (2 * bits l + 1).
Definition ev (W : world) (k x : nat) : bool :=
  let k := N.of_nat k in let v := ShcModel.dec (N.of_nat x) in
  if N.even k then negb (w_test W (ShcModel.code (ShcModel.XDatatype (N.div2 k))) v)
  else match v with TIri c => N.testbit (N.div2 k) c | _ => false end.
Lemma bits_in l c : N.testbit (bits l) c = true <-> In c l.
Proof.
  induction l as [|d l IH]; cbn [bits fold_right In]; [rewrite N.bits_0; split; [discriminate|intros []]|]. rewrite N.setbit_iff, <- IH. reflexivity.
Qed.
Lemma nd_inj t t' : nd t = nd t' -> t = t'.
Proof. unfold nd. intro E. apply N2Nat.inj in E. rewrite <- (ShcLemmas.dec_enc t), <- (ShcLemmas.dec_enc t'), E. reflexivity. Qed.
Lemma same W : same_world nd nd nu dk vk (ev W) W.
Proof.
  split.
  - apply nd_inj.
  - apply nd_inj.
  - apply N2Nat.inj.
  - intros d v. unfold ev, dk, nd. rewrite !N2Nat.id, ShcLemmas.dec_enc, N.even_mul. cbn [N.even orb]. rewrite N.div2_double. apply negb_true_iff.
  - intros l v. unfold ev, vk, nd. rewrite !N2Nat.id, ShcLemmas.dec_enc. rewrite N.add_comm, N.even_add_mul_2. cbn [N.even]. rewrite N.add_comm. change (2 * bits l + 1)%N with (N.succ_double (bits l)) || rewrite <- N.succ_double_spec.
    rewrite N.div2_succ_double. destruct v as [c|c|c]; (split; [|intros (d & I & E)]); try discriminate.
    + intro B. exists c. split; [apply bits_in, B|reflexivity].
    + injection E as ->. apply bits_in, I.
Qed.

(** the IRI 0 is rdf:type and the IRI 1 is rdfs:subClassOf; literals below 10 have datatype 5, those below 5 also datatype 6 *)
Definition tests (g : graph) (k : N) (v : term) : bool :=
  match ShcModel.decode k with
  | ShcModel.XClass c => ShcModel.class_fn g 0 1 c v
  | ShcModel.XDatatype d => match v with TLit n => negb (N.ltb n (if N.eqb d 5 then 10 else 5)) | _ => true end
  | _ => false
  end.
Definition wd (g : graph) : world := mkWorld g (fun l => l) Some (fun _ _ => None) (fun _ => None) (tests g) (fun _ => []).
Definition dt5 : comp := CTest (ShcModel.code (ShcModel.XDatatype 5)).
Definition dt6 : comp := CTest (ShcModel.code (ShcModel.XDatatype 6)).
Definition cls (c : N) : comp := CTest (ShcModel.code (ShcModel.XClass (TIri c))).
Definition nshape (cs : list comp) (off : bool) : ShaclModel.shape := mkShape (TIri 100) None cs [1] off 0 [7%N] None.
Definition pshape (cs : list comp) : ShaclModel.shape := mkShape (TBnode 1) (Some (PPred 7)) cs [] false 0 [] None.
Definition sc (cs ps : list comp) (off : bool) : ShaclModel.schema := [(0, nshape cs off); (1, pshape ps)].
Definition no_target (i : nat) : list ShcModel.target := [].
Notation cv := (fun add sch targets => convert add nd nu dk vk 0 sch targets).
Notation has := (fun g D n => has_shape (ev (wd g)) (fun _ => false) (translated nd nu g) [] D (nd n) (nd (TIri 100))).
(** conformance to such a schema, for components that name no shapes *)
Definition conf (g : graph) (cs ps : list comp) (off : bool) (i : nat) (n : term) : Prop :=
  let none := fun _ _ => False in
  let p := forall c, In c ps -> satisfies (wd g) none (pshape ps) c n in
  match i with
  | 0 => off = true \/ (forall c, In c cs -> satisfies (wd g) none (nshape cs off) c n) /\ p
  | 1 => p
  | _ => False
  end.
Definition names_none (c : comp) : Prop := match c with CTest _ | CClosed _ => True | _ => False end.
Lemma conf_ok g cs ps off : Forall names_none cs -> Forall names_none ps -> conformance (wd g) (sc cs ps off) (conf g cs ps off).
Proof.
  intros NC NP [|[|i]] s t E; cbn in E; try discriminate; injection E as <-.
  - unfold conf. cbn [s_deactivated nshape s_comps s_props]. assert (X : forall C, (forall c, In c cs -> satisfies (wd g) (fun _ _ => False) (nshape cs off) c t) <-> (forall c, In c cs -> satisfies (wd g) C (nshape cs off) c t)).
    { intro C. split; intros H c I; specialize (H c I); rewrite Forall_forall in NC; specialize (NC c I); destruct c; try destruct NC; exact H. }
    rewrite X. split; (intros [H|[H K]]; [left; exact H|right; split; [exact H|]]).
    + intros j v [<-|[]] V. unfold value_node in V. cbn in V. subst v. exact K.
    + exact (K 1 t (or_introl eq_refl) eq_refl).
  - unfold conf. cbn [s_deactivated pshape s_comps s_props]. assert (X : forall C, (forall c, In c ps -> satisfies (wd g) (fun _ _ => False) (pshape ps) c t) <-> (forall c, In c ps -> satisfies (wd g) C (pshape ps) c t)).
    { intro C. split; intros H c I; specialize (H c I); rewrite Forall_forall in NP; specialize (NP c I); destruct c; try destruct NP; exact H. }
    rewrite X. split; [intro H; right; split; [exact H|intros j v []]|intros [H|[H _]]; [discriminate|exact H]].
Qed.
Lemma sc_named cs ps off : well_named (sc cs ps off).
Proof.
  split; [cbn; repeat constructor; cbn; intuition discriminate|]. intros i j s s' [I|[I|[]]] [J|[J|[]]] E; injection I as <- <-; injection J as <- <-; try reflexivity; discriminate E.
Qed.
Lemma sc_separate add cs ps off : separate add 0 (sc cs ps off).
Proof. intros i s [I|[I|[]]] NS; injection I as <- <-; [|discriminate NS]. cbn. destruct add; cbn; repeat constructor; cbn; intuition discriminate. Qed.
(** whether a node of a graph has the ShEx shape *)
Lemma has_iff add g cs ps off targets D n : cv add (sc cs ps off) targets = Ok D -> has g D n <-> asks add 0 (wd g) (sc cs ps off) targets 0 (nshape cs off) n.
Proof.
  intro E. exact (C86_meaning_partial add nd nu dk vk 0 (sc cs ps off) targets nd (ev (wd g)) (fun _ => false) (wd g) (same (wd g)) D 0 (nshape cs off) n E (sc_separate add cs ps off) (sc_named cs ps off) (or_introl eq_refl) eq_refl).
Qed.
Lemma asks_plain g cs ps off n : asks false 0 (wd g) (sc cs ps off) no_target 0 (nshape cs off) n <-> one_value (wd g) n 7 (first_holds 0 (wd g) ps).
Proof.
  unfold asks. split.
  - intros [H _]. exact (H 1 (pshape ps) 7%N (or_introl eq_refl) eq_refl eq_refl).
  - intro H. split; [|discriminate]. intros j s p [<-|[]] E P. cbn in E. injection E as <-. cbn in P. injection P as <-. exact H.
Qed.

Lemma tests_right g : rdf_graph g -> tests_classes 0 (wd g) 1.
Proof.
  intros RG c v. cbn [wd w_test w_graph]. unfold tests. rewrite ShcLemmas.decode_code.
  pose proof (ShcMeaning.class_step (ShcSpec.mkVoc 0 1 (fun _ _ => True)) g c v RG) as H. cbn [ShcSpec.v_type ShcSpec.v_sub] in H. split.
  - intro I. apply H. exists c. split; [exact I|left; reflexivity].
  - intro E. apply H in E. destruct E as (k & I & [->|S]); exists k + exists c; (split; [exact I|]); [apply rt1n_refl|]. apply (Relation_Operators.rt1n_trans _ _ _ c); [exact S|apply rt1n_refl].
Qed.
Definition x0 : term := TIri 200.
Lemma one_in g n p v (P : term -> Prop) : (forall t, In t g -> fst (fst t) = n -> snd (fst t) = p -> snd t = v) -> In (n, p, v) g -> P v -> one_value (wd g) n p P.
Proof. intros H I K. exists v. split; [|exact K]. intro w. split; [intro J; exact (H _ J eq_refl eq_refl)|intros ->; exact I]. Qed.

(** A node with one literal of the datatype: the schema is converted, the node conforms and has the ShEx shape. *)
Definition g_met : graph := [(x0, 7%N, TLit 3)].
Example C86_met : exists D,
  cv false (sc [] [dt5] false) no_target = Ok D /\ convertible false (sc [] [dt5] false) no_target /\
  rdf_graph g_met /\ tests_classes 0 (wd g_met) 1 /\ flat_types 0 (wd g_met) 1 /\ bare (sc [] [dt5] false) (nshape [] false) /\ active (sc [] [dt5] false) (nshape [] false) /\
  has_single_values (wd g_met) (sc [] [dt5] false) (nshape [] false) x0 /\
  conf g_met [] [dt5] false 0 x0 /\ has g_met D x0.
Proof.
  eexists. split; [reflexivity|]. split; [apply (C86_converts false nd nu dk vk 0); eexists; reflexivity|].
  assert (RG : rdf_graph g_met) by (intros s p o [E|[]]; injection E as <- <- <-; exact Logic.I). split; [exact RG|]. split; [apply tests_right, RG|].
  split; [split; [intros n c c' [E|[]]; discriminate E|intros c c' [E|[]]; discriminate E]|].
  split; [split; [reflexivity|]; intros j ps [<-|[]] E; cbn in E; injection E as <-; split; [reflexivity|right; eexists; reflexivity]|].
  split; [split; [reflexivity|]; intros j ps [<-|[]] E; cbn in E; injection E as <-; reflexivity|].
  assert (ONE : forall P : term -> Prop, P (TLit 3) -> one_value (wd g_met) x0 7 P) by (intros P K; apply (one_in g_met x0 7 (TLit 3)); [intros t [<-|[]] _ _; reflexivity|left; reflexivity|exact K]).
  split; [intros j ps p [<-|[]] E P; cbn in E; injection E as <-; cbn in P; injection P as <-; apply ONE; exact Logic.I|].
  split.
  - right. split; [intros ? []|]. intros c [<-|[]]. intros v [E|[]]. injection E as <-. reflexivity.
  - apply (has_iff false g_met [] [dt5] false no_target); [reflexivity|]. apply asks_plain, ONE. reflexivity.
Qed.
(** The ShEx schema in full, with sh:class and with the target classes added to the shape. *)
Example C86_result :
  cv true (sc [] [cls 2; dt5] false) (fun i => [ShcModel.TgNode x0; ShcModel.TgClass (TIri 3)]) =
  Ok (mkAschema None [mkDecl (nd (TIri 100)) (AShape None None (Some (AEach None
    [ATc None None 7 (Some (AShape None None (Some (ATc None None 0 (Some (ANode [POne (vk [2%N])])) None None [])) [])) None None [];
     ATc None None 0 (Some (ANode [POne (vk [3%N])])) None None []] None None [])) []) false]).
Proof. reflexivity. Qed.
Example C86_met_class : exists D,
  cv true (sc [] [] false) (fun i => [ShcModel.TgClass (TIri 2)]) = Ok D /\ has [(x0, 7%N, TLit 3); (x0, 0%N, TIri 2)] D x0 /\ ~ has [(x0, 7%N, TLit 3); (x0, 0%N, TIri 3)] D x0.
Proof.
  eexists. split; [reflexivity|]. split.
  - apply (has_iff true _ [] [] false (fun i => [ShcModel.TgClass (TIri 2)])); [reflexivity|]. split.
    + intros j ps p [<-|[]] E P. cbn in E. injection E as <-. cbn in P. injection P as <-. apply (one_in _ x0 7 (TLit 3)); [|left; reflexivity|exact Logic.I]. intros t [<-|[<-|[]]] _ E; [reflexivity|discriminate E].
    + intros _. apply (one_in _ x0 0 (TIri 2)); [|right; left; reflexivity|left; reflexivity]. intros t [<-|[<-|[]]] _ E; [discriminate E|reflexivity].
  - intro H. apply (has_iff true _ [] [] false (fun i => [ShcModel.TgClass (TIri 2)])) in H; [|reflexivity]. destruct H as [_ H]. destruct (H eq_refl) as (v & U & [E|[]]).
    injection E as <-. specialize (proj2 (U (TIri 2)) eq_refl). intros [E|[E|[]]]; discriminate E.
Qed.

(** ** where the two differ *)
(** No value for a property conforms to SHACL, where the ShEx shape asks for one; neither do two values have the ShEx shape. *)
Theorem C86_counts_refuted : exists g g' n D,
  cv false (sc [] [dt5] false) no_target = Ok D /\
  conf g [] [dt5] false 0 n /\ ~ has g D n /\ conf g' [] [dt5] false 0 n /\ ~ has g' D n.
Proof.
  exists [], [(x0, 7%N, TLit 3); (x0, 7%N, TLit 4)], x0. eexists. split; [reflexivity|]. split; [|split; [|split]].
  - right. split; [intros ? []|]. intros c [<-|[]] v [].
  - intro H. apply (has_iff false [] [] [dt5] false no_target) in H; [|reflexivity]. apply asks_plain in H. destruct H as (v & U & _). exact (proj2 (U v) eq_refl).
  - right. split; [intros ? []|]. intros c [<-|[]] v [E|[E|[]]]; injection E as <-; reflexivity.
  - intro H. apply (has_iff false _ [] [dt5] false no_target) in H; [|reflexivity]. apply asks_plain in H. destruct H as (v & U & _).
    pose proof (proj1 (U (TLit 3)) (or_introl eq_refl)). pose proof (proj1 (U (TLit 4)) (or_intror (or_introl eq_refl))). congruence.
Qed.
(** All components of a property but the first are dropped. *)
Theorem C86_components_refuted : exists g n D,
  cv false (sc [] [dt5; dt6] false) no_target = Ok D /\ has g D n /\ ~ conf g [] [dt5; dt6] false 0 n.
Proof.
  exists [(x0, 7%N, TLit 8)], x0. eexists. split; [reflexivity|]. split.
  - apply (has_iff false _ [] [dt5; dt6] false no_target); [reflexivity|]. apply asks_plain. apply (one_in _ x0 7 (TLit 8)); [intros t [<-|[]] _ _; reflexivity|left; reflexivity|reflexivity].
  - intros [H|[_ H]]; [discriminate|]. specialize (H dt6 (or_intror (or_introl eq_refl)) (TLit 8) (or_introl eq_refl)). discriminate H.
Qed.
(** So are all components of the node shape itself, sh:closed among them. *)
Theorem C86_closed_refuted : exists g n D,
  cv false (sc [CClosed true] [dt5] false) no_target = Ok D /\ has g D n /\ ~ conf g [CClosed true] [dt5] false 0 n.
Proof.
  exists [(x0, 7%N, TLit 3); (x0, 8%N, TLit 3)], x0. eexists. split; [reflexivity|]. split.
  - apply (has_iff false _ [CClosed true] [dt5] false no_target); [reflexivity|]. apply asks_plain. apply (one_in _ x0 7 (TLit 3)); [intros t [<-|[<-|[]]] _ E; [reflexivity|discriminate E]|left; reflexivity|reflexivity].
  - intros [H|[H _]]; [discriminate|]. specialize (H _ (or_introl eq_refl) eq_refl x0 8%N (TLit 3) eq_refl (or_intror (or_introl eq_refl))). destruct H as [H|[]]. discriminate H.
Qed.
(** A shape that is deactivated asks for nothing; the ShEx shape asks for all the same. *)
Theorem C86_deactivated_refuted : exists g n D,
  cv false (sc [] [dt5] true) no_target = Ok D /\ conf g [] [dt5] true 0 n /\ ~ has g D n.
Proof.
  exists [], x0. eexists. split; [reflexivity|]. split; [left; reflexivity|].
  intro H. apply (has_iff false [] [] [dt5] true no_target) in H; [|reflexivity]. apply asks_plain in H. destruct H as (v & U & _). exact (proj2 (U v) eq_refl).
Qed.
(** A node has the ShEx shape for sh:class only if the class is its only type, and not if it is in a subclass. *)
Theorem C86_class_refuted : exists g g' n D,
  cv false (sc [] [cls 2] false) no_target = Ok D /\
  conf g [] [cls 2] false 0 n /\ ~ has g D n /\ conf g' [] [cls 2] false 0 n /\ ~ has g' D n.
Proof.
  exists [(x0, 7%N, TIri 9); (TIri 9, 0%N, TIri 3); (TIri 3, 1%N, TIri 2)], [(x0, 7%N, TIri 9); (TIri 9, 0%N, TIri 2); (TIri 9, 0%N, TIri 3)], x0. eexists. split; [reflexivity|].
  split; [|split; [|split]].
  - right. split; [intros ? []|]. intros c [<-|[]] v [E|[E|[E|[]]]]; try discriminate E. injection E as <-. reflexivity.
  - intro H. apply (has_iff false _ [] [cls 2] false no_target) in H; [|reflexivity]. apply asks_plain in H. destruct H as (v & U & F).
    pose proof (proj1 (U (TIri 9)) (or_introl eq_refl)) as <-. cbn [first_holds cls] in F. rewrite ShcLemmas.decode_code in F. destruct F as (w & Uw & ->).
    specialize (proj2 (Uw (TIri 2)) eq_refl). intros [E|[E|[E|[]]]]; discriminate E.
  - right. split; [intros ? []|]. intros c [<-|[]] v [E|[E|[E|[]]]]; try discriminate E. injection E as <-. reflexivity.
  - intro H. apply (has_iff false _ [] [cls 2] false no_target) in H; [|reflexivity]. apply asks_plain in H. destruct H as (v & U & F).
    pose proof (proj1 (U (TIri 9)) (or_introl eq_refl)) as <-. cbn [first_holds cls] in F. rewrite ShcLemmas.decode_code in F. destruct F as (w & Uw & ->).
    pose proof (proj1 (Uw (TIri 3)) (or_intror (or_intror (or_introl eq_refl)))) as E. discriminate E.
Qed.
(** sh:or is dropped: any value will do. *)
Definition or_schema : ShaclModel.schema :=
  [(0, nshape [] false); (1, pshape [COr [2]]); (2, mkShape (TIri 101) None [dt5] [] false 0 [] None)].
Definition or_conf (g : graph) (i : nat) (n : term) : Prop :=
  match i with 2 => w_test (wd g) (ShcModel.code (ShcModel.XDatatype 5)) n = false | _ => forall v, In (n, 7%N, v) g -> w_test (wd g) (ShcModel.code (ShcModel.XDatatype 5)) v = false end.
Theorem C86_or_refuted : exists g n D,
  cv false or_schema no_target = Ok D /\ conformance (wd g) or_schema (or_conf g) /\ has g D n /\ ~ or_conf g 0 n.
Proof.
  exists [(x0, 7%N, TLit 20)], x0. eexists. split; [reflexivity|]. split; [|split].
  - intros [|[|[|i]]] s t E; cbn in E; try discriminate; injection E as <-; cbn [s_deactivated nshape pshape s_comps s_props].
    + split.
      * intro H. right. split; [intros ? []|]. intros j v [<-|[]] V. cbn in V. subst v. exact H.
      * intros [H|[_ H]]; [discriminate|]. exact (H 1 t (or_introl eq_refl) eq_refl).
    + split.
      * intro H. right. split; [|intros ? ? []]. intros c [<-|[]]. intros v V. exists 2. split; [left; reflexivity|]. exact (H v V).
      * intros [H|[H _]]; [discriminate|]. intros v V. destruct (H _ (or_introl eq_refl) v V) as (j & [<-|[]] & K). exact K.
    + split.
      * intro H. right. split; [|intros ? ? []]. intros c [<-|[]]. intros v V. cbn in V. subst v. exact H.
      * intros [H|[H _]]; [discriminate|]. exact (H _ (or_introl eq_refl) t eq_refl).
  - refine (proj2 (C86_meaning_partial false nd nu dk vk 0 or_schema no_target nd _ (fun _ => false) (wd _) (same (wd _)) _ 0 (nshape [] false) x0 eq_refl _ _ (or_introl eq_refl) eq_refl) _).
    + intros i s [I|[I|[I|[]]]] NS; injection I as <- <-; [|discriminate NS|]; cbn; repeat constructor; cbn; intuition discriminate.
    + split; [cbn; repeat constructor; cbn; intuition discriminate|]. intros i j s s' [I|[I|[I|[]]]] [J|[J|[J|[]]]] E; injection I as <- <-; injection J as <- <-; try reflexivity; discriminate E.
    + split; [|discriminate]. intros j ps p [<-|[]] E P. cbn in E. injection E as <-. cbn in P. injection P as <-. apply (one_in _ x0 7 (TLit 20)); [intros t [<-|[]] _ _; reflexivity|left; reflexivity|exact Logic.I].
  - intro H. specialize (H (TLit 20) (or_introl eq_refl)). discriminate H.
Qed.
(** sh:minCount, like most components, makes the conversion panic. *)
Theorem C86_total_refuted : exists sch, cv false sch no_target = Panic.
Proof. exists (sc [] [CMinCount 1] false). reflexivity. Qed.
(** Two property shapes for one property ask for two values, where SHACL and [asks] are content with one. *)
Definition twice : ShaclModel.schema := [(0, mkShape (TIri 100) None [] [1; 2] false 0 [] None); (1, pshape []); (2, mkShape (TBnode 2) (Some (PPred 7)) [] [] false 0 [] None)].
Theorem C86_separate_refuted : exists g n D,
  cv false twice no_target = Ok D /\ well_named twice /\ ~ has g D n /\
  asks false 0 (wd g) twice no_target 0 (mkShape (TIri 100) None [] [1; 2] false 0 [] None) n /\ forall C, conformance (wd g) twice C -> C 0 n.
Proof.
  exists [(x0, 7%N, TLit 3)], x0. eexists. split; [reflexivity|]. split; [|split; [|split]].
  - split; [cbn; repeat constructor; cbn; intuition discriminate|]. intros i j s s' [I|[I|[I|[]]]] [J|[J|[J|[]]]] E; injection I as <- <-; injection J as <- <-; try reflexivity; discriminate E.
  - intros (T & Tn & Ts). destruct (Ts _ _ Tn) as (e & De & S). apply MatLemmas.defines_declared in De.
    2: { intros l e' [(a & d & [<-|[]] & [<-|[]] & _ & <-)|(_ & X)]; [|discriminate X]. cbn. auto. }
    destruct De as [(a & d & [<-|[]] & [<-|[]] & _ & <-)|(_ & X)]; [|discriminate X]. cbn [d_expr] in S. apply shape_unfold in S. destruct S as (matched & rest & (ND & NB) & M & _).
    apply TxFinal.each_iff in M. cbn [TxFinal.allmatch] in M. destruct M as (a & b & P & (La & _ & Ha) & (a' & b' & P' & (Lb & _ & Hb) & ->)).
    rewrite app_nil_r in P'. cbn in La, Lb.
    assert (ALL : forall k v, In (k, v) a \/ In (k, v) a' -> (k, v) = (direct 7, nd (TLit 3))).
    { intros k v H. assert (K : k = direct 7) by (destruct H as [H|H]; [apply (Ha k v H)|apply (Hb k v H)]). subst k. f_equal.
      assert (In (direct 7, v) (matched ++ rest)) as I. { apply in_or_app. left. apply (Permutation_in _ (Permutation_sym P)), in_or_app. destruct H as [H|H]; [left; exact H|right; apply (Permutation_in _ (Permutation_sym P')), H]. }
      apply NB in I. destruct I as (p & [[E [J|[]]]|[E _]]); [apply (f_equal snd) in J; symmetry; exact J|exfalso; exact (MatFinal.direct_inverse _ _ E)]. }
    assert (NM : NoDup (a ++ a')).
    { apply (Permutation_NoDup (l := matched)); [eapply Permutation_trans; [exact P|]; apply Permutation_app_head, P'|]. exact (proj1 (MatFinal.NoDup_app_inv _ _ ND)). }
    destruct a as [|[k v] a]; [cbn in La; lia|]. destruct a' as [|[k' v'] a']; [cbn in Lb; lia|]. cbn [app] in NM. inversion NM as [|? ? NI _]; subst. apply NI.
    rewrite (ALL k v (or_introl (or_introl eq_refl))), <- (ALL k' v' (or_intror (or_introl eq_refl))). apply in_or_app. right; left; reflexivity.
  - split; [|discriminate]. intros j ps p [<-|[<-|[]]] E P; cbn in E; injection E as <-; cbn in P; injection P as <-; (apply (one_in _ x0 7 (TLit 3)); [intros t [<-|[]] _ _; reflexivity|left; reflexivity|exact Logic.I]).
  - intros C CF. apply (CF 0 _ x0 eq_refl). right. split; [intros ? []|]. intros j v [<-|[<-|[]]] V; cbn in V; subst v.
    + apply (CF 1 _ x0 eq_refl). right. split; [intros ? []|intros ? ? []].
    + apply (CF 2 _ x0 eq_refl). right. split; [intros ? []|intros ? ? []].
Qed.
(** The schemas of these examples are ones whose conformance is as [conf] says. *)
Example C86_conf g : conformance (wd g) (sc [] [dt5] false) (conf g [] [dt5] false) /\ conformance (wd g) (sc [] [dt5; dt6] false) (conf g [] [dt5; dt6] false) /\
  conformance (wd g) (sc [CClosed true] [dt5] false) (conf g [CClosed true] [dt5] false) /\ conformance (wd g) (sc [] [dt5] true) (conf g [] [dt5] true) /\
  conformance (wd g) (sc [] [cls 2] false) (conf g [] [cls 2] false).
Proof. do 4 (split; [apply conf_ok; repeat constructor|]). apply conf_ok; repeat constructor. Qed.
Print Assumptions C86_counts_refuted.
Print Assumptions C86_class_refuted.
Print Assumptions C86_or_refuted.
Print Assumptions C86_separate_refuted.
