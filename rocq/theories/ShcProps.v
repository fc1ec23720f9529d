(** Property C69: compiling SHACL shapes keeps their meaning. *)
From Coq Require Import List Bool NArith ZArith Relations Lia Arith.
Import ListNotations.
From Verif Require Import GraphModel GraphSpec LevelModel LevelSpec LevelLemmas LevelProps.
From Verif Require Import PathModel PathSpec PathLemmas ShaclModel ShaclSpec ShaclConf ShcModel ShcSpec ShcLemmas ShcMeaning.

(** exactly the well-written schemas without recursion are taken, and nothing else happens than an error *)
Theorem C69_accepts_iff regex scc fuel A : distinct A -> fuel_for A <= fuel ->
  ((exists st g, ShcModel.compile regex scc fuel A = Ok (st, g)) <-> well_written regex A /\ ~ arecursive A) /\
  ((exists st g, ShcModel.compile regex scc fuel A = Ok (st, g)) \/ ShcModel.compile regex scc fuel A = Err).
Proof.
  intros D F. destruct (compile_cases regex scc fuel A D F) as [(st & g & E & CS & _ & N)|[E B]].
  - split; [|left; exists st, g; exact E]. split; [|intros _; exists st, g; exact E]. intros _. split; [apply (compiled_good regex A st D CS)|exact N].
  - split; [|right; exact E]. split.
    + intros (st & g & E'). congruence.
    + intros [G N]. destruct B as [B|B]; contradiction.
Qed.
Print Assumptions C69_accepts_iff.

(** every shape gets one number, every number belongs to one shape, and path, severity, targets and id are kept *)
Theorem C69_shapes regex scc fuel A st g : distinct A -> fuel_for A <= fuel -> ShcModel.compile regex scc fuel A = Ok (st, g) ->
  exists number : term -> option nat,
    (forall x, number x <> None <-> exists a, In (x, a) A) /\
    (forall x y i, number x = Some i -> number y = Some i -> x = y) /\
    (forall i s, get_shape (ir_schema st) i = Some s -> number (s_id s) = Some i) /\
    (forall x a i, In (x, a) A -> number x = Some i -> exists s, get_shape (ir_schema st) i = Some s /\
      s_id s = x /\ s_path s = a_path a /\ s_severity s = a_severity a /\ ir_targets st i = a_targets a /\
      (s_deactivated s = true <-> In (ADeactivated true) (a_comps a)) /\
      length (s_comps s) = length (a_comps a) /\ map Some (s_props s) = map number (a_props a)).
Proof.
  intros D F E. destruct (compile_cases regex scc fuel A D F) as [(st' & g' & E' & CS & _ & N)|[E' _]]; [|congruence].
  rewrite E in E'. injection E' as <- <-. exists (label_of (s_labels st)). refine (conj _ (conj _ (conj _ _))).
  - intros x. split.
    + intros H. destruct (label_of (s_labels st) x) as [i|] eqn:L; [|congruence]. apply (label_known regex A st CS x i L).
    + intros (a & H) L. destruct (c_all _ _ st CS x a H) as (i & K). congruence.
  - intros x y i. apply label_inj, (i_nums A st (c_inv _ _ st CS)).
  - intros i s H. destruct (source_of regex A st CS i s H) as (id & a & _ & L & M). rewrite (m_id _ _ _ _ _ _ _ M). exact L.
  - intros x a i I L. destruct (shape_of regex A st D CS x a I) as (i' & s & L' & G & M). assert (i' = i) as -> by congruence. exists s.
    refine (conj G (conj (m_id _ _ _ _ _ _ _ M) (conj (m_path _ _ _ _ _ _ _ M) (conj (m_sev _ _ _ _ _ _ _ M) (conj _ (conj _ (conj _ _))))))).
    + apply (get_shape_in regex A st CS) in G. destruct G as (ts & G). unfold ir_targets. destruct (List.find (fun e => Nat.eqb (fst e) i) (s_shapes st)) as [[j [s' ts']]|] eqn:FD.
      * apply find_some in FD. destruct FD as [FD EQ]. cbn in EQ. apply Nat.eqb_eq in EQ. subst j. cbn [snd]. destruct (c_done _ _ st CS _ FD) as (id & b & FS & LB & MB). cbn [fst snd] in *.
        assert (id = x) as -> by (apply (label_inj _ id x i (i_nums A st (c_inv _ _ st CS)) LB L)). rewrite (find_shape_in A x a D I) in FS. injection FS as <-. apply (m_targets _ _ _ _ _ _ _ MB).
      * apply (find_none _ _ FD) in G. cbn in G. rewrite Nat.eqb_refl in G. discriminate.
    + apply (deactivated_iff regex A st x a s M).
    + symmetry. pose proof (m_comps _ _ _ _ _ _ _ M) as H. clear -H. induction H; cbn; congruence.
    + pose proof (m_props _ _ _ _ _ _ _ M) as H. clear -H. induction H as [|u i l is H K IH]; cbn; [reflexivity|]. unfold labelled in H. congruence.
Qed.
Print Assumptions C69_shapes.

(** conformance to the compiled shapes is conformance to the shapes as written *)
Theorem C69_meaning_partial W V regex scc fuel A st g : distinct A -> fuel_for A <= fuel -> ShcModel.compile regex scc fuel A = Ok (st, g) ->
  tidy A -> rdf_graph (w_graph W) -> flat_classes (v_sub V) (w_graph W) -> tests_fit W V ->
  exists number : term -> option nat,
    (forall x, number x <> None <-> exists a, In (x, a) A) /\ (forall x y i, number x = Some i -> number y = Some i -> x = y) /\
    forall C, conformance W (ir_schema st) C <-> aconformance W V A (fun x t => exists i, number x = Some i /\ C i t).
Proof.
  intros D F E T G FC FT. destruct (compile_cases regex scc fuel A D F) as [(st' & g' & E' & CS & _ & N)|[E' _]]; [|congruence].
  rewrite E in E'. injection E' as <- <-. exists (label_of (s_labels st)). refine (conj _ (conj _ _)).
  - intros x. split.
    + intros H. destruct (label_of (s_labels st) x) as [i|] eqn:L; [|congruence]. apply (label_known regex A st CS x i L).
    + intros (a & H) L. destruct (c_all _ _ st CS x a H) as (i & K). congruence.
  - intros x y i. apply label_inj, (i_nums A st (c_inv _ _ st CS)).
  - intros C. apply (meaning_kept W V regex A st D CS T G FC FT C).
Qed.
Print Assumptions C69_meaning_partial.

(** ** an example: a shape with two property shapes, one of which asks for a third shape *)
Definition ex_name (n : N) : term := TIri n.
Definition ex_ast : ast :=
  [(ex_name 1, mkAshape None [AClosed true [9%N]; ANode (ex_name 4)] [ex_name 2; ex_name 3] [TgNode (TIri 100)] 0 None);
   (ex_name 2, mkAshape (Some (PPred 7)) [AMinCount 1; AMaxCount 2; AClass (TIri 50)] [] [] 0 None);
   (ex_name 3, mkAshape (Some (PPred 8)) [AQualified (ex_name 4) (Some 1%Z) None (Some true) [ex_name 5]; AIn [VIri (IriFull 30); VLit 31]] [] [] 1 None);
   (ex_name 4, mkAshape None [ADatatype (IriFull 60); APattern 3] [] [] 0 None);
   (ex_name 5, mkAshape None [ANot (ex_name 4); ADeactivated true] [] [TgClass (TIri 50)] 0 None)].
Example C69_distinct : distinct ex_ast.
Proof. unfold distinct. cbn. repeat constructor; cbn; intuition discriminate. Qed.
Ltac tell := repeat match goal with
  | H : _ \/ _ |- _ => destruct H
  | H : False |- _ => destruct H
  | H : _ = _ |- _ => first [discriminate H | injection H; clear H; intros; subst]
  end.
Example C69_tidy : tidy ex_ast.
Proof.
  intros id a H. cbn in H. tell; (refine (conj _ (conj _ _)); cbn; [intros z Z|intros b l b' l' H H'|intros i q1 q2 d sib H K]); tell; try lia; try congruence; auto.
Qed.
Example C69_met : match ShcModel.compile (fun _ => true) (fun _ => []) (fuel_for ex_ast) ex_ast with
  | Ok (st, _) => rev (s_labels st) = [(ex_name 1, 0); (ex_name 4, 1); (ex_name 2, 2); (ex_name 3, 3); (ex_name 5, 4)] /\
      option_map s_comps (get_shape (ir_schema st) 3) = Some [CQualified 1 [4] (Some 1%Z) None; CIn [TIri 30; TLit 31]] /\
      option_map s_allowed (get_shape (ir_schema st) 0) = Some [7; 8; 9]%N
  | _ => False end.
Proof. vm_compute. repeat split; reflexivity. Qed.
(** a reference to a shape that is not there, and a shape that refers to itself *)
Example C69_missing : ShcModel.compile (fun _ => true) (fun _ => []) 9 [(ex_name 1, mkAshape None [ANode (ex_name 2)] [] [] 0 None)] = Err.
Proof. reflexivity. Qed.
Example C69_recursive : ShcModel.compile (fun _ => true) (fun _ => []) 9 [(ex_name 1, mkAshape None [ANot (ex_name 1)] [] [] 0 None)] = Err.
Proof. reflexivity. Qed.

(** ** what is lost *)
(** every node has at least -1 values, but the compiled shape asks for 2^64 - 1 of them *)
Definition neg_ast : ast := [(ex_name 1, mkAshape None [AMinCount (-1)] [] [] 0 None)].
Lemma one_compiles c : readable (fun _ => true) c -> acomp_refs c = [] -> (forall j, ~ acomp_refers c j) ->
  exists st g, ShcModel.compile (fun _ => true) (fun _ => []) 3 [(ex_name 1, mkAshape None [c] [] [] 0 None)] = Ok (st, g).
Proof.
  intros R N RF. apply (proj1 (C69_accepts_iff (fun _ => true) (fun _ => []) 3 [(ex_name 1, mkAshape None [c] [] [] 0 None)] ltac:(repeat constructor; intros []) ltac:(unfold fuel_for; cbn; lia))). split.
  - intros id a [H|[]]. injection H as <- <-. refine (conj _ (conj _ (conj _ _))); cbn.
    + rewrite N. intros j [].
    + intros d [<-|[]]. exact R.
    + intros _ j b [].
    + intros p r H. discriminate.
  - intros (x & H). assert (K : forall z, clos_trans term (arefers [(ex_name 1, mkAshape None [c] [] [] 0 None)]) x z -> exists y, arefers [(ex_name 1, mkAshape None [c] [] [] 0 None)] x y)
      by (clear; intros z H; induction H as [x y H|x y z H IH K JH]; [exists y; exact H|exact IH]).
    specialize (K x H).
    destruct K as (y & a & [K|[]] & Q). injection K as <- <-. cbn in Q. destruct Q as [(d & [<-|[]] & Q)|[]]. exact (RF y Q).
Qed.
Theorem C69_negative_count_refuted : exists st g i, distinct neg_ast /\ ShcModel.compile (fun _ => true) (fun _ => []) 3 neg_ast = Ok (st, g) /\
  label_of (s_labels st) (ex_name 1) = Some i /\
  (forall W V C t, aconformance W V neg_ast C -> C (ex_name 1) t) /\
  (forall W C t, conformance W (ir_schema st) C -> ~ C i t).
Proof.
  assert (D : distinct neg_ast) by (repeat constructor; intros []).
  destruct (one_compiles (AMinCount (-1)) Logic.I eq_refl ltac:(intros j [])) as (st & g & E). fold neg_ast in E.
  destruct (compile_cases (fun _ => true) (fun _ => []) 3 neg_ast D ltac:(unfold fuel_for; cbn; lia)) as [(st' & g' & E' & CS & _ & N)|[E' _]]; [|congruence].
  rewrite E in E'. injection E' as <- <-. destruct (shape_of _ neg_ast st D CS (ex_name 1) _ (or_introl eq_refl)) as (i & s & L & G & M).
  exists st, g, i. refine (conj D (conj E (conj L (conj _ _)))).
  - intros W V C t K. apply (K (ex_name 1) _ t (or_introl eq_refl)). right. split; [|intros j v []].
    intros c [<-|[]]. cbn. exists []. split; [constructor|]. split; [intros v []|cbn; lia].
  - intros W C t K H. apply (K i s t G) in H. destruct H as [H|[H _]].
    + rewrite (m_deact _ _ _ _ _ _ _ M) in H. discriminate.
    + pose proof (m_comps _ _ _ _ _ _ _ M) as MC. cbn [a_comps] in MC. inversion MC as [|c d cs ds C1 C2 X1 X2]; subst. cbn [comp_match] in C1. subst d. rewrite <- X2 in H. specialize (H _ (or_introl eq_refl)).
      cbn [satisfies] in H. destruct H as (l & ND & HL & LE). unfold value_node in HL. rewrite (m_path _ _ _ _ _ _ _ M) in HL. cbn in HL.
      assert (LL : length l <= 1). { destruct l as [|x [|y l]]; cbn; try lia. exfalso. inversion ND as [|? ? N1 _]; subst. apply N1. left. rewrite (HL x), (HL y); cbn; auto. }
      unfold usize_of in LE. rewrite Z2Nat.id in LE by (apply Z.mod_pos_bound; reflexivity). change ((-1) mod 2 ^ 64)%Z with 18446744073709551615%Z in LE. lia.
Qed.
Print Assumptions C69_negative_count_refuted.

(** with a second sh:closed, the properties that the shape ignores are those of the first *)
Definition twice_ast : ast := [(ex_name 1, mkAshape None [AClosed false []; AClosed true [7%N]] [] [] 0 None)].
Definition twice_world : world := mkWorld [(TIri 100, 7%N, TIri 101)] (fun l => l) (fun n => Some n) (fun _ _ => None) (fun _ => None) (fun _ _ => false) (fun _ => []).
Theorem C69_closed_twice_refuted : exists st g i, ShcModel.compile (fun _ => true) (fun _ => []) 3 twice_ast = Ok (st, g) /\
  label_of (s_labels st) (ex_name 1) = Some i /\
  (forall V C, aconformance twice_world V twice_ast C -> C (ex_name 1) (TIri 100)) /\
  (forall C, conformance twice_world (ir_schema st) C -> ~ C i (TIri 100)).
Proof.
  eexists. eexists. exists 0. split; [reflexivity|]. split; [reflexivity|]. split.
  - intros V C K. apply (K (ex_name 1) _ (TIri 100) (or_introl eq_refl)). right. split; [|intros j v []]. intros c [<-|[<-|[]]]; cbn; [discriminate|].
    intros _ v p o -> [H|[]]. injection H as <- _. left. left. reflexivity.
  - intros C K H. apply (K 0 _ (TIri 100) eq_refl) in H. destruct H as [H|[H _]]; [discriminate|]. cbn in H. apply (H _ (or_intror (or_introl eq_refl)) eq_refl (TIri 100) 7%N (TIri 101)); [reflexivity|]. left. reflexivity.
Qed.
Print Assumptions C69_closed_twice_refuted.

(** siblings count although disjointness is not asked for (the reader of shapes graphs never gives siblings then) *)
Definition sib_ast : ast :=
  [(ex_name 1, mkAshape None [AQualified (ex_name 2) (Some 1%Z) None (Some false) [ex_name 2]] [] [] 0 None); (ex_name 2, mkAshape None [] [] [] 0 None)].
Theorem C69_siblings_refuted : exists st g i, ShcModel.compile (fun _ => true) (fun _ => []) 4 sib_ast = Ok (st, g) /\
  label_of (s_labels st) (ex_name 1) = Some i /\
  (forall W V C t, aconformance W V sib_ast C -> C (ex_name 1) t) /\ (forall W C t, conformance W (ir_schema st) C -> ~ C i t).
Proof.
  eexists. eexists. exists 0. split; [reflexivity|]. split; [reflexivity|]. split.
  - intros W V C t K. apply (K (ex_name 1) _ t (or_introl eq_refl)). right. split; [|intros j v []]. intros c [<-|[]]. cbn. split; [|discriminate].
    intros m E. injection E as <-. exists [t]. split; [repeat constructor; intros []|]. split; [|cbn; lia]. intros v [<-|[]]. split; [reflexivity|]. split; [|discriminate].
    apply (K (ex_name 2) _ t (or_intror (or_introl eq_refl))). right. split; [intros c []|intros j v []].
  - intros W C t K H. apply (K 0 _ t eq_refl) in H. destruct H as [H|[H _]]; [discriminate|]. specialize (H _ (or_introl eq_refl)). cbn in H. destruct H as [H _]. destruct (H 1%Z eq_refl) as (l & N & HL & LE).
    destruct l as [|x l]; [cbn in LE; lia|]. destruct (HL x (or_introl eq_refl)) as (_ & A1 & A2). exact (A2 1 (or_introl eq_refl) A1).
Qed.
Print Assumptions C69_siblings_refuted.

(** sh:class looks at the direct superclasses of the types of a node only *)
Definition deep_world (V : vocabulary) : world :=
  mkWorld [(TIri 100, v_type V, TIri 1); (TIri 1, v_sub V, TIri 2); (TIri 2, v_sub V, TIri 3)] (fun l => l) (fun n => Some n) (fun _ _ => None) (fun _ => None)
    (fun k v => match decode k with
                | XClass c => class_fn [(TIri 100, v_type V, TIri 1); (TIri 1, v_sub V, TIri 2); (TIri 2, v_sub V, TIri 3)] (v_type V) (v_sub V) c v
                | _ => false end) (fun _ => []).
Definition deep_ast : ast := [(ex_name 1, mkAshape None [AClass (TIri 3)] [] [] 0 None)].
Definition deep_voc : vocabulary := mkVoc 200 201 (fun _ _ => True).
Theorem C69_class_depth_refuted : exists st g i, ShcModel.compile (fun _ => true) (fun _ => []) 3 deep_ast = Ok (st, g) /\
  label_of (s_labels st) (ex_name 1) = Some i /\ tests_fit (deep_world deep_voc) deep_voc /\
  (forall C, aconformance (deep_world deep_voc) deep_voc deep_ast C -> C (ex_name 1) (TIri 100)) /\
  (forall C, conformance (deep_world deep_voc) (ir_schema st) C -> ~ C i (TIri 100)).
Proof.
  eexists. eexists. exists 0. split; [reflexivity|]. split; [reflexivity|]. split; [|split].
  - intros k v. cbn [deep_world w_test w_graph]. destruct (decode k); [reflexivity| | |]; cbn; tauto.
  - intros C K. apply (K (ex_name 1) _ (TIri 100) (or_introl eq_refl)). right. split; [|intros j v []]. intros c [<-|[]]. cbn. intros v ->. exists (TIri 1). split; [left; reflexivity|].
    apply rt_trans with (TIri 2); apply rt_step; cbn; auto.
  - intros C K H. apply (K 0 _ (TIri 100) eq_refl) in H. destruct H as [H|[H _]]; [discriminate|]. specialize (H _ (or_introl eq_refl) (TIri 100) eq_refl). vm_compute in H. discriminate.
Qed.
Print Assumptions C69_class_depth_refuted.

(** the hypotheses of C69_meaning_partial can be met, with classes in a hierarchy *)
Example C69_world : let V := deep_voc in let g := [(TIri 100, v_type V, TIri 1); (TIri 1, v_sub V, TIri 2)] in
  rdf_graph g /\ flat_classes (v_sub V) g /\ class_fn g (v_type V) (v_sub V) (TIri 2) (TIri 100) = false /\ class_fn g (v_type V) (v_sub V) (TIri 3) (TIri 100) = true.
Proof.
  cbn. refine (conj _ (conj _ (conj eq_refl eq_refl))).
  - intros s p o H. cbn in H. tell; exact Logic.I.
  - intros a b c H K. cbn in H, K. tell.
Qed.
