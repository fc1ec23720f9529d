(* Comparing two shapes: what is compared, and what the comparison says (C87). *)
From Coq Require Import List String Ascii Bool.
Import ListNotations.
From Verif Require Import SjModel CoModel CoSpec CoLemmas.
Open Scope string_scope.

Section Props.
Context {L : lib}.

(* The comparison of two descriptions puts every property in the right place: with both descriptions if both have it, and with
   the one there is if just one of them has it.  So it does not depend on the order in which the maps are walked. *)
Theorem C87_compare (m1 m2 : coshamo) (p : string) : NoDup (map fst m1) -> NoDup (map fst m2) ->
  lookup p (equal_properties (compare m1 m2)) = match lookup p m1, lookup p m2 with Some d1, Some d2 => Some (d1, d2) | _, _ => None end /\
  lookup p (properties1 (compare m1 m2)) = match lookup p m1, lookup p m2 with Some d1, None => Some d1 | _, _ => None end /\
  lookup p (properties2 (compare m1 m2)) = match lookup p m1, lookup p m2 with None, Some d2 => Some d2 | _, _ => None end.
Proof. apply compare_spec. Qed.

(* The other way around, the two sides change places. *)
Theorem C87_symmetric (m1 m2 : coshamo) (p : string) : NoDup (map fst m1) -> NoDup (map fst m2) ->
  lookup p (properties1 (compare m2 m1)) = lookup p (properties2 (compare m1 m2)) /\
  lookup p (properties2 (compare m2 m1)) = lookup p (properties1 (compare m1 m2)) /\
  lookup p (equal_properties (compare m2 m1)) = option_map (fun d => (snd d, fst d)) (lookup p (equal_properties (compare m1 m2))).
Proof.
  intros N1 N2. destruct (compare_spec m1 m2 p N1 N2) as (A & B & C). destruct (compare_spec m2 m1 p N2 N1) as (A' & B' & C'). rewrite A, B, C, A', B', C'.
  destruct (lookup p m1), (lookup p m2); repeat split; reflexivity.
Qed.

(* A shape is described exactly when the label is an IRI that names it and it can be described. *)
Theorem C87_describes (ignore : bool) (sch : schema) (l : string) : prefixes_fine sch ->
  (exists m, populate ignore sch (Some l) = Ok m) <->
  l <> "START" /\ String.prefix "_:" l = false /\ iri_ok l = true /\ exists e, labelled sch l e /\ describable ignore sch e.
Proof.
  intro PF. cbn [populate]. split.
  - intros (m & E). destruct (find_shape sch l) as [[e|]| |] eqn:F; cbn [rbind] in E; try discriminate. apply (find_shape_iff sch PF) in F. destruct F as (A & B & C & D).
    repeat split; try assumption. exists e. split; [exact D|]. apply (shape_ok sch PF). eauto.
  - intros (A & B & C & e & D & K). assert (F : find_shape sch l = Ok (Some e)) by (apply (find_shape_iff sch PF); auto). rewrite F. cbn [rbind]. apply (shape_ok sch PF ignore) in K. exact K.
Qed.

(* The description of a shape whose expression is a group has the properties of the shape, each with the last constraint on it
   and what that says about the value.  The full statement is about all shapes: it is refuted below. *)
Theorem C87_properties_partial (ignore : bool) (sch : schema) (l : string) (e : sexpr) (m : coshamo) (p : string) :
  prefixes_fine sch -> labelled sch l e -> grouped e -> populate ignore sch (Some l) = Ok m ->
  ((exists d, lookup p m = Some d) <-> has_property sch e p) /\
  (forall d, lookup p m = Some d -> exists ve, last_constraint sch e p (vd_iri d) ve /\ describes ignore sch ve (vd_constraint d)).
Proof.
  intros PF LA G E. cbn [populate] in E. destruct (find_shape sch l) as [[e'|]| |] eqn:F; cbn [rbind] in E; try discriminate.
  assert (e' = e) as ->.
  { pose proof (proj1 (find_shape_iff sch PF l e') F) as (A & B & C & D). assert (F' : find_shape sch l = Ok (Some e)) by (apply (find_shape_iff sch PF); auto). congruence. }
  split; [exact (grouped_property sch PF ignore e m p E G)|]. intros d H. apply (grouped_lookup sch PF ignore e m p d E G) in H. destruct H as (ve & H & V). exists ve. split; [exact H|]. apply (value_iff sch PF), V.
Qed.

(* So comparing two such shapes tells which properties they share and which just one of them has.  The full statement is about
   all shapes: it is refuted below. *)
Theorem C87_shapes_partial (ignore : bool) (s1 s2 : schema) (l1 l2 : string) (e1 e2 : sexpr) (r : shaco) (p : string) :
  prefixes_fine s1 -> prefixes_fine s2 -> labelled s1 l1 e1 -> labelled s2 l2 e2 -> grouped e1 -> grouped e2 ->
  compare_shapes ignore s1 s2 (Some l1) (Some l2) = Ok r ->
  ((exists d, lookup p (equal_properties r) = Some d) <-> has_property s1 e1 p /\ has_property s2 e2 p) /\
  ((exists d, lookup p (properties1 r) = Some d) <-> has_property s1 e1 p /\ ~ has_property s2 e2 p) /\
  ((exists d, lookup p (properties2 r) = Some d) <-> ~ has_property s1 e1 p /\ has_property s2 e2 p).
Proof.
  intros P1 P2 L1 L2 G1 G2 E. unfold compare_shapes in E. destruct (populate ignore s1 (Some l1)) as [m1| |] eqn:E1; cbn [rbind] in E; try discriminate.
  destruct (populate ignore s2 (Some l2)) as [m2| |] eqn:E2; cbn [rbind] in E; try discriminate. injection E as <-.
  assert (K : forall sch l m, prefixes_fine sch -> populate ignore sch (Some l) = Ok m -> NoDup (map fst m)).
  { intros sch l m PF H. cbn [populate] in H. destruct (find_shape sch l) as [[e|]| |]; cbn [rbind] in H; try discriminate. exact (shape_keys sch ignore e m H). }
  destruct (C87_compare m1 m2 p (K _ _ _ P1 E1) (K _ _ _ P2 E2)) as (A & B & C).
  destruct (C87_properties_partial ignore s1 l1 e1 m1 p P1 L1 G1 E1) as [H1 _]. destruct (C87_properties_partial ignore s2 l2 e2 m2 p P2 L2 G2 E2) as [H2 _].
  rewrite A, B, C, <- H1, <- H2. clear.
  assert (Y : forall T (d : T), exists x, Some d = Some x) by eauto.
  assert (N' : forall T, ~ (exists x, @None T = Some x)) by (intros T (x & X); discriminate X).
  destruct (lookup p m1) as [d1|], (lookup p m2) as [d2|]; (split; [|split]); split; intro H; try (exfalso; exact (N' _ H)); try (exfalso; destruct H as [H H']; first [exact (N' _ H)|exact (N' _ H')|exact (H (Y _ _))|exact (H' (Y _ _))]); try apply Y; (split; first [apply Y|apply N']).
Qed.

(* A shape whose expression is a single constraint is described by nothing: no property of it is ever compared. *)
Theorem C87_single (ignore : bool) (s1 s2 : schema) (l1 l2 : string) (c : option bool) (x : option (list iriref)) (te : texpr) a n ex (i : iriref) (ve : option sexpr) (r : shaco) (p : string) :
  prefixes_fine s1 -> prefixes_fine s2 -> labelled s1 l1 (SShape c x (Some te) a n ex) -> constraint_of te i ve ->
  compare_shapes ignore s1 s2 (Some l1) (Some l2) = Ok r -> lookup p (equal_properties r) = None /\ lookup p (properties1 r) = None.
Proof.
  intros P1 P2 LA (id & neg & inv & mn & mx & acts & anns & ->) E. unfold compare_shapes in E. destruct (populate ignore s1 (Some l1)) as [m1| |] eqn:E1; cbn [rbind] in E; try discriminate.
  destruct (populate ignore s2 (Some l2)) as [m2| |] eqn:E2; cbn [rbind] in E; try discriminate. injection E as <-.
  assert (m1 = []) as ->.
  { cbn [populate] in E1. destruct (find_shape s1 l1) as [[e'|]| |] eqn:F; cbn [rbind] in E1; try discriminate.
    pose proof (proj1 (find_shape_iff s1 P1 l1 e') F) as (A & B & C & D). assert (F' : find_shape s1 l1 = Ok (Some (SShape c x (Some (TTriple id neg inv i ve mn mx acts anns)) a n ex))) by (apply (find_shape_iff s1 P1); auto).
    rewrite F in F'. injection F' as ->. cbn [shape2coshamo triple_expr2coshamo] in E1. destruct (resolve (s_prefixes s1) i); cbn [rbind] in E1; try discriminate. destruct (value_constraint ignore (s_prefixes s1) ve); cbn [rbind] in E1; try discriminate. congruence. }
  assert (K : NoDup (map fst m2)).
  { cbn [populate] in E2. destruct (find_shape s2 l2) as [[e|]| |]; cbn [rbind] in E2; try discriminate. exact (shape_keys s2 ignore e m2 E2). }
  destruct (C87_compare [] m2 p (NoDup_nil _) K) as (A & B & _). split; [rewrite A|rewrite B]; reflexivity.
Qed.
End Props.
Print Assumptions C87_compare.
Print Assumptions C87_symmetric.
Print Assumptions C87_describes.
Print Assumptions C87_properties_partial.
Print Assumptions C87_shapes_partial.
Print Assumptions C87_single.

(* ------------------------------------------------------------------ *)
(* Examples and refutations                                             *)

Definition lib0 : lib := {|
  dec := string; dbl := string; fnum := nat;
  show_dec := fun s => s; parse_dec := Some; show_dbl := fun s => s; parse_dbl := Some;
  write_fnum := fun _ => JNull; read_fnum := fun _ => Err;
  iri_ok := fun s => String.prefix "http://" s; lang_new := fun _ => None |}.
#[local] Existing Instance lib0.

Definition pm0 : list (string * string) := [("ex", "http://e/"); ("", "http://d"); ("xsd", "http://x#")].
Definition triple (inv : option bool) (p : iriref) (ve : option sexpr) (mn : option _) (mx : option _) : texpr := TTriple None None inv p ve mn mx None None.
Definition group (l : list texpr) : texpr := TEach None l None None None None.
Definition plain (te : texpr) : sexpr := SShape None None (Some te) None None None.
Definition of_type (d : string) : option sexpr := Some (SNode {| n_kind := None; n_datatype := Some (Prefixed "xsd" d); n_facets := None; n_values := None |}).
Definition of_kind (k : nodekind) : option sexpr := Some (SNode {| n_kind := Some k; n_datatype := None; n_facets := None; n_values := None |}).
Definition sch0 (pm : option (list (string * string))) (ds : list (label * sexpr)) : schema := {|
  s_context := ""; s_type := "Schema"; s_imports := None; s_start := None; s_acts := None;
  s_shapes := Some (map (fun d => {| d_type := "ShapeDecl"; d_abstract := false; d_id := fst d; d_expr := snd d |}) ds);
  s_prefixes := pm; s_base := None; s_source := "" |}.

Lemma one_prefix_each ds : prefixes_fine (sch0 (Some pm0) ds).
Proof. repeat constructor; cbn; intuition discriminate. Qed.

Definition one : schema := sch0 (Some pm0)
  [(LBNode "b", plain (group [])); (LIri (Prefixed "ex" "T"), plain (group []));
   (LIri (Prefixed "ex" "S"), plain (group [triple None (Prefixed "ex" "p") (of_type "int") None None; triple None (Prefixed "" "q") (of_kind NIri) None None; triple None (Iri "http://e/r") None None None;
     triple None (Iri "http://e/s") (Some (SRef (LIri (Prefixed "ex" "T")))) None None]))].
Definition two : schema := sch0 (Some pm0)
  [(LIri (Iri "http://e/S"), plain (group [triple None (Iri "http://e/p") (of_type "int") None None; triple None (Iri "http://d/q") (of_kind NLiteral) None None; triple None (Prefixed "ex" "t") None None None]))].

Example C87_result : compare_shapes false one two (Some "http://e/S") (Some "http://e/S") = Ok {|
  equal_properties := [("http://e/p", ({| vd_iri := Prefixed "ex" "p"; vd_constraint := VcDatatype "http://x#int" |}, {| vd_iri := Iri "http://e/p"; vd_constraint := VcDatatype "http://x#int" |}));
                       ("http://d/q", ({| vd_iri := Prefixed "" "q"; vd_constraint := VcKind "IRI" |}, {| vd_iri := Iri "http://d/q"; vd_constraint := VcKind "Literal" |}))];
  properties1 := [("http://e/r", {| vd_iri := Iri "http://e/r"; vd_constraint := VcAny |}); ("http://e/s", {| vd_iri := Iri "http://e/s"; vd_constraint := VcRef "ex:T" |})];
  properties2 := [("http://e/t", {| vd_iri := Prefixed "ex" "t"; vd_constraint := VcAny |})] |}.
Proof. vm_compute. reflexivity. Qed.

(* Without a label, and for groups in groups, there is an error. *)
Example C87_errors : populate false one None = Err /\
  populate false (sch0 (Some pm0) [(LIri (Iri "http://e/S"), plain (group [group []]))]) (Some "http://e/S") = Err.
Proof. split; vm_compute; reflexivity. Qed.

(* With the constraints on values left out, also constraints that have no description are accepted. *)
Example C87_ignored : populate true (sch0 (Some pm0) [(LIri (Iri "http://e/S"), plain (group [triple None (Iri "http://e/p") (Some (SNot (SRef LStart))) None None]))]) (Some "http://e/S")
  = Ok [("http://e/p", {| vd_iri := Iri "http://e/p"; vd_constraint := VcAny |})].
Proof. vm_compute. reflexivity. Qed.

(* The hypotheses of C87_describes, C87_properties_partial and C87_shapes_partial are met by these schemas. *)
Definition shape_of (sch : schema) (n : nat) : sexpr := match s_shapes sch with Some ds => match nth_error ds n with Some d => d_expr d | None => SExternal end | None => SExternal end.
Example C87_met : prefixes_fine one /\ prefixes_fine two /\ labelled one "http://e/S" (shape_of one 2) /\ labelled two "http://e/S" (shape_of two 0) /\ grouped (shape_of one 2) /\ grouped (shape_of two 0) /\
  has_property one (shape_of one 2) "http://d/q" /\ (exists m, populate false one (Some "http://e/S") = Ok m) /\ describable false one (shape_of one 2).
Proof.
  assert (F1 : labelled one "http://e/S" (shape_of one 2)) by (apply (find_shape_iff one (one_prefix_each _) "http://e/S" (shape_of one 2)); vm_compute; reflexivity).
  assert (F2 : labelled two "http://e/S" (shape_of two 0)) by (apply (find_shape_iff two (one_prefix_each _) "http://e/S" (shape_of two 0)); vm_compute; reflexivity).
  split; [apply one_prefix_each|]. split; [apply one_prefix_each|]. split; [exact F1|]. split; [exact F2|].
  split; [do 6 eexists; split; [reflexivity|]; intros te' [= <-]; do 6 eexists; reflexivity|]. split; [do 6 eexists; split; [reflexivity|]; intros te' [= <-]; do 6 eexists; reflexivity|].
  split.
  { exists (Prefixed "" "q"), (of_kind NIri). split.
    - do 6 eexists. split; [reflexivity|]. right. do 7 eexists. split; [reflexivity|]. split; [right; left; reflexivity|]. do 7 eexists. reflexivity.
    - exists "http://d". split; [right; left; reflexivity|]. split; [reflexivity|]. right. split; [|reflexivity]. intros K. apply separated_iff in K. discriminate K. }
  assert (M : exists m, populate false one (Some "http://e/S") = Ok m) by (eexists; vm_compute; reflexivity). split; [exact M|].
  apply (C87_describes false one "http://e/S" (one_prefix_each _)) in M. destruct M as (_ & _ & _ & e & LE & D).
  assert (X : find_shape one "http://e/S" = Ok (Some e)) by (apply (find_shape_iff one (one_prefix_each _)); repeat split; try reflexivity; [discriminate|exact LE]).
  assert (Y : find_shape one "http://e/S" = Ok (Some (shape_of one 2))) by (apply (find_shape_iff one (one_prefix_each _)); repeat split; try reflexivity; [discriminate|exact F1]).
  congruence.
Qed.

(* A shape with a single constraint is described by nothing: the property it has is found in neither list. *)
Definition lone : schema := sch0 (Some pm0) [(LIri (Iri "http://e/S"), plain (triple None (Iri "http://e/p") None None None))].
Theorem C87_properties_refuted : exists sch l e p m, prefixes_fine sch /\ labelled sch l e /\ has_property sch e p /\ populate false sch (Some l) = Ok m /\ lookup p m = None.
Proof.
  exists lone, "http://e/S", (shape_of lone 0), "http://e/p", []. split; [apply one_prefix_each|]. split; [apply (find_shape_iff lone (one_prefix_each _) "http://e/S" (shape_of lone 0)); vm_compute; reflexivity|].
  split; [|split; reflexivity]. exists (Iri "http://e/p"), None. split; [|reflexivity]. do 6 eexists. split; [reflexivity|]. left. do 7 eexists. reflexivity.
Qed.
Theorem C87_shapes_refuted : exists s1 s2 l1 l2 e1 e2 p r, prefixes_fine s1 /\ prefixes_fine s2 /\ labelled s1 l1 e1 /\ labelled s2 l2 e2 /\ has_property s1 e1 p /\ has_property s2 e2 p /\
  compare_shapes false s1 s2 (Some l1) (Some l2) = Ok r /\ lookup p (equal_properties r) = None /\ exists d, lookup p (properties2 r) = Some d.
Proof.
  exists lone, two, "http://e/S", "http://e/S", (shape_of lone 0), (shape_of two 0), "http://e/p". eexists. split; [apply one_prefix_each|]. split; [apply one_prefix_each|].
  split; [apply (find_shape_iff lone (one_prefix_each _) "http://e/S" (shape_of lone 0)); vm_compute; reflexivity|]. split; [apply (find_shape_iff two (one_prefix_each _) "http://e/S" (shape_of two 0)); vm_compute; reflexivity|].
  split; [exists (Iri "http://e/p"), None; split; [|reflexivity]; do 6 eexists; split; [reflexivity|]; left; do 7 eexists; reflexivity|].
  split; [exists (Iri "http://e/p"), (of_type "int"); split; [|reflexivity]; do 6 eexists; split; [reflexivity|]; right; do 7 eexists; split; [reflexivity|]; split; [left; reflexivity|]; do 7 eexists; reflexivity|].
  split; [vm_compute; reflexivity|]. split; [reflexivity|]. eexists. reflexivity.
Qed.

(* Properties that are called equal can have values of different types, and differ in direction and in number: what is said of
   two shapes that no node but one without these properties can have is that they have the same properties. *)
Definition pair_of (l1 l2 : list texpr) : res shaco := compare_shapes false (sch0 (Some pm0) [(LIri (Iri "http://e/S"), plain (group l1))]) (sch0 (Some pm0) [(LIri (Iri "http://e/S"), plain (group l2))]) (Some "http://e/S") (Some "http://e/S").
Theorem C87_equal_refuted : exists l1 l2 r d1 d2, pair_of l1 l2 = Ok r /\ lookup "http://e/p" (equal_properties r) = Some (d1, d2) /\ vd_constraint d1 <> vd_constraint d2 /\ properties1 r = [] /\ properties2 r = [].
Proof.
  exists [triple None (Iri "http://e/p") (of_type "int") None None], [triple None (Iri "http://e/p") (of_type "string") None None]. do 3 eexists. split; [vm_compute; reflexivity|]. split; [reflexivity|]. split; [discriminate|]. split; reflexivity.
Qed.
(* The direction and the number of values are no part of the description: replacing them changes nothing. *)
Definition reshaped (te te' : texpr) : Prop :=
  exists id neg inv mn mx acts anns id' neg' inv' mn' mx' acts' anns' p ve, te = TTriple id neg inv p ve mn mx acts anns /\ te' = TTriple id' neg' inv' p ve mn' mx' acts' anns'.
Theorem C87_blind (ignore : bool) (pm : option (list (string * string))) (l l' : list texpr) : Forall2 reshaped l l' -> forall c x a n ex id mn mx acts anns c' x' a' n' ex' id' mn' mx' acts' anns',
  shape2coshamo ignore pm (SShape c x (Some (TEach id l mn mx acts anns)) a n ex) = shape2coshamo ignore pm (SShape c' x' (Some (TEach id' l' mn' mx' acts' anns')) a' n' ex').
Proof.
  intros H c x a n ex id mn mx acts anns c' x' a' n' ex' id' mn' mx' acts' anns'. cbn [shape2coshamo triple_expr2coshamo]. generalize (@nil (string * vdescr)). induction H as [|te te' l l' R H IH]; intro m; [reflexivity|].
  destruct R as (? & ? & ? & ? & ? & ? & ? & ? & ? & ? & ? & ? & ? & ? & p & ve & -> & ->). cbn [add_all as_constraint]. destruct (value_constraint ignore pm ve); cbn [rmap rbind]; try reflexivity. cbn [fst snd]. destruct (resolve pm p); cbn [rbind]; try reflexivity. apply IH.
Qed.

(* Of two constraints on one property the first is lost. *)
Theorem C87_first_refuted : exists l r d, pair_of l [] = Ok r /\ lookup "http://e/p" (properties1 r) = Some d /\ vd_constraint d = VcKind "IRI" /\ In (triple None (Iri "http://e/p") (of_type "int") None None) l.
Proof.
  exists [triple None (Iri "http://e/p") (of_type "int") None None; triple None (Prefixed "ex" "p") (of_kind NIri) None None]. do 2 eexists. split; [vm_compute; reflexivity|]. split; [reflexivity|]. split; [reflexivity|left; reflexivity].
Qed.

(* Without a prefix map no shape with a constraint can be described, even if all its names are IRIs. *)
Theorem C87_no_prefixes (ignore : bool) (sch : schema) (l : string) (e : sexpr) (p : iriref) (ve : option sexpr) : s_prefixes sch = None -> labelled sch l e -> constrains e p ve ->
  forall m, populate ignore sch (Some l) <> Ok m.
Proof.
  intros N LA K m E. assert (PF : prefixes_fine sch) by (unfold prefixes_fine, prefixes_of; rewrite N; constructor).
  pose proof (proj1 (C87_describes ignore sch l PF) (ex_intro _ m E)) as (A & B & C & e' & LE & D).
  assert (e' = e) as ->.
  { assert (X : find_shape sch l = Ok (Some e)) by (apply (find_shape_iff sch PF); auto). assert (Y : find_shape sch l = Ok (Some e')) by (apply (find_shape_iff sch PF); auto). congruence. }
  destruct D as (c & x & te & a & n & ex & -> & _ & H). destruct (H _ _ K) as [Q _]. contradiction.
Qed.
Example C87_no_prefixes_met : let sch := sch0 None [(LIri (Iri "http://e/S"), plain (group [triple None (Iri "http://e/p") None None None]))] in
  labelled sch "http://e/S" (shape_of sch 0) /\ constrains (shape_of sch 0) (Iri "http://e/p") None /\ populate true sch (Some "http://e/S") = Err.
Proof.
  cbv zeta. split; [apply find_shape_iff; [constructor|reflexivity]|]. split; [|reflexivity]. do 6 eexists. split; [reflexivity|]. right. do 7 eexists. split; [reflexivity|]. split; [left; reflexivity|]. do 7 eexists. reflexivity.
Qed.

(* The label of the start shape and those of blank nodes bring the comparison down, and so does a shape that is a reference to a
   triple expression. *)
Theorem C87_total_refuted : (forall ignore sch, populate ignore sch (Some "START") = Panic) /\ (forall ignore sch b, populate ignore sch (Some ("_:" ++ b)) = Panic) /\
  exists sch, populate false sch (Some "http://e/S") = Panic.
Proof.
  split; [reflexivity|]. split; [intros ignore sch b; cbn; destruct b; reflexivity|]. exists (sch0 (Some pm0) [(LIri (Iri "http://e/S"), plain (TRef (TLIri (Iri "http://e/t"))))]). reflexivity.
Qed.
(* A label cannot be looked up behind one with an unknown prefix. *)
Theorem C87_later_refuted : exists sch, populate false sch (Some "http://e/S") = Err /\ exists d, In d (match s_shapes sch with Some l => l | None => [] end) /\ d_id d = LIri (Iri "http://e/S") /\ describable false sch (d_expr d).
Proof.
  exists (sch0 (Some pm0) [(LIri (Prefixed "zz" "T"), plain (group [])); (LIri (Iri "http://e/S"), plain (group []))]). split; [reflexivity|]. eexists. split; [right; left; reflexivity|]. split; [reflexivity|].
  do 6 eexists. split; [reflexivity|]. split; [right; do 6 eexists; split; [reflexivity|intros te' []]|]. intros p ve (c & x & te & a & n & ex & [= <- <- <- <- <- <-] & [(? & ? & ? & ? & ? & ? & ? & K)|(? & ? & ? & ? & ? & ? & te' & [= <- <- <- <- <- <-] & [] & _)]). discriminate K.
Qed.
Print Assumptions C87_properties_refuted.
Print Assumptions C87_shapes_refuted.
Print Assumptions C87_equal_refuted.
Print Assumptions C87_blind.
Print Assumptions C87_first_refuted.
Print Assumptions C87_no_prefixes.
Print Assumptions C87_total_refuted.
Print Assumptions C87_later_refuted.
