(* The conformance metrics: properties. *)
From Coq Require Import List String Ascii Bool ZArith NArith QArith Permutation Lia Decimal DecimalString.
Import ListNotations.
From Verif Require Import SjModel CoModel CoSpec SqModel SqSpec SqLemmas GenModel GenSpec GenLemmas GenNames GenEntity GenGraph GenWhole GenProps CmModel CmSpec CmLemmas CmGen.
Open Scope string_scope.
Open Scope Z_scope.

(* The number of valid triples is the number of the triples that are valid, if nodes have one type and shapes a property once. *)
Theorem C92_valid_partial {F : nums} m ts tr : NoDup ts -> one_type ts -> plain m ->
  exists vs, NoDup vs /\ (forall t, In t vs <-> In t ts /\ valid m ts t) /\
    valid_triples (from_graph_and_model ts m tr) = Z.of_nat (List.length vs) /\ total_triples (from_graph_and_model ts m tr) = Z.of_nat (List.length ts).
Proof.
  intros N O M. exists (filter (is_valid m (fst (scan ts)) (snd (scan ts))) ts). split; [apply NoDup_filter, N|]. split.
  - intro t. rewrite filter_In, (is_valid_iff m ts t N O M). reflexivity.
  - unfold from_graph_and_model. destruct (scan ts). auto.
Qed.
Print Assumptions C92_valid_partial.

(* The order of the triples does not matter then. *)
Theorem C92_order_partial {F : nums} m ts ts' tr : Permutation ts ts' -> NoDup ts -> one_type ts -> plain m ->
  from_graph_and_model ts m tr = from_graph_and_model ts' m tr.
Proof. apply order_free. Qed.
Print Assumptions C92_order_partial.

(* Percentages are between 0 and 100; 100 means that all triples are valid, and that there are some. *)
Theorem C92_percentage {F : nums} ts m tr : let r := from_graph_and_model ts m tr in
  (0 <= validity r <= 100)%Q /\ valid_triples r <= total_triples r /\ ((validity r == 100)%Q <-> ts <> [] /\ valid_triples r = total_triples r).
Proof. apply validity_range. Qed.
Print Assumptions C92_percentage.

(* What is lost is between 0 and 100 percent; it is 0 if and only if all that is asked of values is kept. *)
Theorem C92_loss {F : nums} {L : lib} ts m ds : let r := from_graph_and_model ts m (translation_of ds) in
  (0 <= loss r <= 100)%Q /\ 0 <= represented r <= original r /\ ((loss r == 0)%Q <-> nothing_lost ds).
Proof.
  destruct (translation_fair ds) as [T1 T2]. destruct (loss_range ts m (translation_of ds)) as [R1 R2]; [lia|lia|]. cbv zeta. rewrite R2, T2. split; [exact R1|]. split; [|reflexivity].
  unfold from_graph_and_model. destruct (scan ts). cbn [represented original]. lia.
Qed.
Print Assumptions C92_loss.

(* All triples made from easy schemas are valid. The full statement: exactly the data that conform have 100 percent. *)
Theorem C92_generated_partial {L : lib} {G : glib} {F : nums} (ord : forall A : Type, list (string * A) -> list (string * A)) checks rand cfg ds tr :
  (forall A l, Permutation (ord A l) l) -> easy_schema ds -> whole_entities cfg -> texts -> divides cfg -> reads_integers ->
  exists ts, generate_shex ord checks rand cfg ds = Ok ts /\
    forall g, graph_of ts g -> g <> [] -> (validity (from_graph_and_model g (convert_shapes ds) tr) == 100)%Q.
Proof.
  intros P E W T D R. destruct (generated ord P checks rand cfg ds E W T D R) as (ts & Er & H). exists ts. split; [exact Er|]. intros g Gr Ne. destruct (H g Gr) as [O V]. pose proof (proj1 Gr) as Ng.
  apply (validity_range g (convert_shapes ds) tr). split; [exact Ne|]. destruct (C92_valid_partial (convert_shapes ds) g tr Ng O (easy_plain ds E)) as (vs & Nv & Hv & -> & ->).
  f_equal. apply Permutation_length, NoDup_Permutation; [exact Nv|exact Ng|]. intro t. rewrite Hv. split; [tauto|auto].
Qed.
Print Assumptions C92_generated_partial.

(* ------------------------------------------------------------------ *)
(* Examples                                                             *)

#[local] Existing Instance l0.
#[local] Existing Instance g0.
#[local] Instance n0 : nums := {| f64 := Z; parse := fun s => match NilZero.int_of_string s with Some i => Some (Z.of_int i) | None => None end;
  f_le := Z.leb; f_lt := Z.ltb; regex := fun p => if String.eqb p "(" then None else Some (fun s => String.eqb s p) |}.
Definition no_loss : translation := {| t_original := 0; t_represented := 0 |}.
Definition mt s p o : mtriple := {| m_s := MIri s; m_p := p; m_o := o |}.
Definition is_a s c : mtriple := mt s the_type (MNode (MIri c)).

Lemma reads0 : reads_integers.
Proof.
  exists (fun z => z). split; [|split].
  - intros s z [(i & E & <-)|E]; [|exact E]. cbn [parse n0]. rewrite E. reflexivity.
  - intros a b H. apply Z.leb_le, H.
  - intros a b H _. apply Z.ltb_lt, H.
Qed.
Definition two : list mtriple :=
  [is_a "P-1" "P"; mt "P-1" "name" (MLit "t" (xsd "string")); is_a "P-2" "P"; mt "P-2" "age" (MLit "31" (xsd "integer")); mt "P-2" "name" (MLit "t" (xsd "string"));
   mt "P-1" "knows" (MNode (MIri "P-2")); is_a "P-3" "Z"].
Ltac apart := repeat constructor; cbn; intuition discriminate.
Lemma one_two : one_type two.
Proof. intros s c c' H H'. unfold has_type, two, is_a, mt in *. cbn in H, H'. repeat (destruct H as [H|H]; [try discriminate; injection H as <- <-; repeat (destruct H' as [H'|H']; [try discriminate; injection H' as <-; reflexivity|]); destruct H'|]). destruct H. Qed.
Lemma plain_people : plain (convert_shapes people).
Proof. split; [apart|]. intros c sh I. repeat (destruct I as [I|I]; [injection I as <- <-; apart|]). destruct I. Qed.
Example C92_met : NoDup two /\ one_type two /\ plain (convert_shapes people) /\ easy_schema people /\ reads_integers /\
  (let r := from_graph_and_model two (convert_shapes people) (translation_of people) in
   valid_triples r = 4 /\ total_triples r = 7 /\ original r = 9 /\ represented r = 9 /\ (loss r == 0)%Q).
Proof.
  split; [apart|]. split; [exact one_two|]. split; [exact plain_people|]. split; [exact (proj1 C90_met)|]. split; [exact reads0|]. vm_compute. auto.
Qed.
(* Every kind of constraint, met and not met. *)
Example C92_constraints : let ty := [(MIri "b", "B")] in let lit s := MLit s (xsd "string") in let iri s := MNode (MIri s) in let blank s := MNode (MBlank s) in
  List.map (fun k => List.map (evaluate ty (CKind k)) [iri "a"; blank "a"; lit "a"]) [UKIri; UKBNode; UKLiteral; UKBNodeOrIri; UKBNodeOrLiteral; UKIriOrLiteral] =
    [[true; false; false]; [false; true; false]; [false; false; true]; [true; true; false]; [false; true; true]; [true; false; true]] /\
  List.map (evaluate ty (CShapeRef "B")) [iri "b"; iri "c"; blank "b"; lit "b"] = [true; false; false; false] /\
  List.map (evaluate ty (CPattern "ab")) [lit "ab"; lit "c"; iri "ab"] = [true; false; false] /\ evaluate ty (CPattern "(") (lit "(") = false /\
  List.map (fun c => List.map (evaluate ty c) [lit "4"; lit "5"; lit "6"; lit "x"; iri "5"]) [CMinIn (ULit "5" None); CMinEx (ULit "5" None); CMaxIn (ULit "5" None); CMaxEx (ULit "5" None); CMinIn (UIri "5")] =
    [[false; true; true; false; false]; [false; false; true; false; false]; [true; true; false; false; false]; [true; false; false; false; false]; [false; false; false; false; false]] /\
  List.map (fun c => List.map (evaluate ty c) [lit "a"; lit "ab"; lit (String (ascii_of_nat 195) (String (ascii_of_nat 169) "b")); lit "abc"; iri "ab"]) [CMinLength 2; CMaxLength 2] =
    [[false; true; true; true; false]; [true; true; true; false; false]] /\
  List.map (evaluate ty (CIn [UIri "a"; ULit "l" None; ULit "m" (Some (xsd "date")); UBNode "n"])) [iri "a"; lit "l"; lit "m"; MLit "m" (xsd "date"); blank "n"; iri "n"] = [true; true; false; true; true; false] /\
  evaluate ty (CHasValue (UIri "a")) (iri "a") = true.
Proof. vm_compute. auto 10. Qed.

(* ------------------------------------------------------------------ *)
(* What the metrics do not see                                          *)

(* Data that are made and do not conform have 100 percent: the least number of values is not looked at. *)
Definition once : list mtriple := [is_a "A-1" "A"; mt "A-1" "p" (MLit "t" (xsd "string"))].
Theorem C92_missing_refuted : exists cfg d ts g, generate_shex ord0 true rand0 cfg [d] = Ok ts /\ graph_of ts g /\
  (validity (from_graph_and_model g (convert_shapes [d]) (translation_of [d])) == 100)%Q /\
  forall other_facet in_set other_expr, ~ conforms other_facet in_set other_expr ts d (entity "A" 1).
Proof.
  exists (with_strategy Maximum), twice. eexists _, once. split; [vm_compute; reflexivity|]. split; [|split].
  - split; [apart|]. intro t. split.
    + intros [<-|[<-|[]]]; eexists; (split; [left; reflexivity|reflexivity]) || (split; [right; left; reflexivity|reflexivity]).
    + intros (t' & I & ->). repeat (destruct I as [<-|I]; [cbn; unfold as_triple, is_a, mt; cbn; tauto|]). destruct I.
  - vm_compute. reflexivity.
  - intros fa se oe C. specialize (C _ (arcs_outgoing _ _)). cbn [d_expr twice shape_decl] in C. apply right_number in C. destruct C as [[W _] _]. vm_compute in W. apply W. reflexivity.
Qed.
Print Assumptions C92_missing_refuted.

(* Too many values are never valid for a greatest number, but without one there is no limit, where ShEx has one. *)
Definition thrice : list triple := [{| tr_s := "A-1"; tr_p := rdf_type; tr_o := TmIri "A" |}; {| tr_s := "A-1"; tr_p := "p"; tr_o := TmLit "s" (xsd "string") |}; {| tr_s := "A-1"; tr_p := "p"; tr_o := TmLit "t" (xsd "string") |}].
Definition single : decl := shape_decl "A" None (Some (constraint "p" (typed "string") None None)).
Theorem C92_default_refuted : exists d ts g, graph_of ts g /\ (validity (from_graph_and_model g (convert_shapes [d]) (translation_of [d])) == 100)%Q /\
  forall other_facet in_set other_expr, ~ conforms other_facet in_set other_expr ts d (entity "A" 1).
Proof.
  exists single, thrice, (List.map as_triple thrice). split; [|split].
  - split; [apart|]. intro t. rewrite in_map_iff. split; intros (t' & A & B); exists t'; auto.
  - vm_compute. reflexivity.
  - intros fa se oe C. specialize (C _ (arcs_outgoing _ _)). cbn [d_expr single shape_decl] in C. apply right_number in C. destruct C as [[_ W] _]. vm_compute in W. lia.
Qed.
Print Assumptions C92_default_refuted.

(* Two types: which triples are valid depends on the order of the triples. *)
Definition two_types : list mtriple := [is_a "x" "P"; is_a "x" "Q"; mt "x" "name" (MLit "t" (xsd "string"))].
Theorem C92_types_refuted : exists m ts ts', plain m /\ NoDup ts /\ Permutation ts ts' /\
  valid_triples (from_graph_and_model ts m no_loss) <> valid_triples (from_graph_and_model ts' m no_loss).
Proof.
  exists (convert_shapes people), two_types, [is_a "x" "Q"; is_a "x" "P"; mt "x" "name" (MLit "t" (xsd "string"))].
  split; [exact plain_people|]. split; [apart|]. split; [apply perm_swap|]. vm_compute. discriminate.
Qed.
Print Assumptions C92_types_refuted.

(* A property twice: only its first constraint counts, so data that conform do not have 100 percent. *)
Definition mixed : decl := shape_decl "A" None (Some (both [constraint "p" (typed "string") None None; constraint "p" (typed "boolean") None None])).
Definition mixed_data : list triple :=
  [{| tr_s := "A-1"; tr_p := rdf_type; tr_o := TmIri "A" |}; {| tr_s := "A-1"; tr_p := "p"; tr_o := TmLit "s" (xsd "string") |}; {| tr_s := "A-1"; tr_p := "p"; tr_o := TmLit "true" (xsd "boolean") |}].
Theorem C92_twice_refuted : exists d ts g, graph_of ts g /\ one_type g /\ valid_triples (from_graph_and_model g (convert_shapes [d]) no_loss) < total_triples (from_graph_and_model g (convert_shapes [d]) no_loss) /\
  (forall t, In t g -> valid (convert_shapes [d]) g t) /\ forall other_facet in_set other_expr, conforms other_facet in_set other_expr ts d (entity "A" 1).
Proof.
  exists mixed, mixed_data, (List.map as_triple mixed_data). split; [|split; [|split; [|split]]].
  - split; [apart|]. intro t. rewrite in_map_iff. split; intros (t' & A & B); exists t'; auto.
  - intros s c c' H H'. unfold has_type in *. cbn in H, H'. destruct H as [H|[H|[H|[]]]]; try discriminate. destruct H' as [H'|[H'|[H'|[]]]]; try discriminate. congruence.
  - vm_compute. reflexivity.
  - intros t I. cbn in I. destruct I as [<-|[<-|[<-|[]]]].
    + left. split; [reflexivity|]. eexists _, _. split; [reflexivity|]. left. reflexivity.
    + right. split; [discriminate|]. eexists "A", _, _. split; [left; reflexivity|]. split; [left; reflexivity|]. split; [left; reflexivity|]. split; [reflexivity|].
      split; [intros n E; discriminate E|]. intros k [<-|[]]. exists "s". reflexivity.
    + right. split; [discriminate|]. eexists "A", _, _. split; [left; reflexivity|]. split; [left; reflexivity|]. split; [right; left; reflexivity|]. split; [reflexivity|].
      split; [intros n E; discriminate E|]. intros k [<-|[]]. exists "true". reflexivity.
  - intros fa se oe arcs O. cbn [d_expr mixed shape_decl].
    assert (P : Permutation arcs [("p", TmLit "s" (xsd "string")); ("p", TmLit "true" (xsd "boolean")); (rdf_type, TmIri "A")]).
    { destruct O as [N H]. apply NoDup_Permutation; [exact N|apart|]. intros [p o]. rewrite H. split.
      - intros (s & _ & I). cbn in I. destruct I as [I|[I|[I|[]]]]; injection I as _ <- <-; cbn; tauto.
      - intros [I|[I|[I|[]]]]; injection I as <- <-; exists "A-1"; (split; [reflexivity|]); cbn; tauto. }
    assert (Me : forall d s, meets fa se oe (SNode {| n_kind := None; n_datatype := Some (Iri d); n_facets := None; n_values := None |}) (TmLit s d)).
    { intros d s. cbn. split; [|split; [|split]]; try discriminate. intros d' E. injection E as <-. exists s, d. split; reflexivity. }
    exists [("p", TmLit "s" (xsd "string")); ("p", TmLit "true" (xsd "boolean"))], [(rdf_type, TmIri "A")]. split; [exact P|]. split.
    + cbn [matches both]. exists [[("p", TmLit "s" (xsd "string")); ("p", TmLit "true" (xsd "boolean"))]]. cbn [List.length List.concat app]. split; [reflexivity|]. split; [split; cbn; lia|]. constructor; [|constructor].
      exists [("p", TmLit "s" (xsd "string"))], [("p", TmLit "true" (xsd "boolean"))]. split; [reflexivity|]. split.
      * cbn. repeat split; try discriminate; try lia. constructor; [|constructor]. split; [reflexivity|]. apply Me.
      * exists [("p", TmLit "true" (xsd "boolean"))], []. split; [reflexivity|]. split; [|reflexivity]. cbn. repeat split; try discriminate; try lia. constructor; [|constructor]. split; [reflexivity|]. apply Me.
    + intros i o [E|[]]. injection E as <- <-. split; [|discriminate]. intros te' p ve E I S. injection E as <-. cbn in I. destruct I as [I|[I|[]]]; injection I as <- <-; discriminate S.
Qed.
Print Assumptions C92_twice_refuted.

(* No triples are 0 percent, although nothing is wrong. *)
Theorem C92_empty_refuted : exists m ts tr, (forall t, In t ts -> valid m ts t) /\ (validity (from_graph_and_model ts m tr) == 0)%Q.
Proof. exists [], [], no_loss. split; [intros t []|reflexivity]. Qed.
Print Assumptions C92_empty_refuted.

(* A closed shape is converted as an open one, and nothing is lost by the metrics, although not the same nodes have it. *)
Definition optional closed : decl := shape_decl "A" closed (Some (constraint "p" (typed "string") (Some 0) (Some 1))).
Definition other_arc : list triple := [{| tr_s := "A-1"; tr_p := "q"; tr_o := TmIri "b" |}].
Theorem C92_closed_refuted : exists d d' ts, convert_shapes [d] = convert_shapes [d'] /\
  (loss (from_graph_and_model [] (convert_shapes [d']) (translation_of [d'])) == 0)%Q /\
  forall other_facet in_set other_expr, conforms other_facet in_set other_expr ts d (entity "A" 1) /\ ~ conforms other_facet in_set other_expr ts d' (entity "A" 1).
Proof.
  exists (optional None), (optional (Some true)), other_arc. split; [reflexivity|]. split; [reflexivity|]. intros fa se oe. split.
  - intros arcs O. cbn [d_expr optional shape_decl]. exists [], arcs. split; [reflexivity|]. split; [cbn; repeat split; try discriminate; try lia; constructor|].
    intros i o I. apply (proj2 O) in I. destruct I as (s & _ & [I|[]]). injection I as _ <- <-. split; [|discriminate]. intros te' p ve E J S. injection E as <-. cbn in J. destruct J as [J|[]]. injection J as <- <-. discriminate S.
  - intro C. specialize (C _ (arcs_outgoing _ _)). cbn [d_expr optional shape_decl] in C. destruct C as (taken & rest & P & M & R). cbn [matches constraint] in M. destruct M as (_ & _ & _ & Fm). rewrite Forall_forall in Fm.
    assert (I : In ("q", TmIri "b") (taken ++ rest)) by (rewrite <- P; vm_compute; tauto). apply in_app_or in I. destruct I as [I|I].
    + destruct (Fm _ I) as [St _]. discriminate St.
    + destruct (R _ _ I) as [_ R2]. destruct (R2 eq_refl) as (l & x & H & _). discriminate H.
Qed.
Print Assumptions C92_closed_refuted.
