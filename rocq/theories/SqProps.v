(* Converting ShEx to SPARQL: what is converted, what the query asks for, and its text (C88). *)
From Coq Require Import List String Ascii Bool Arith Lia ZArith Permutation.
Import ListNotations.
From Verif Require Import SjModel CoModel CoSpec CoLemmas SqModel SqSpec SqLemmas SqMeaning.
Open Scope string_scope.

Section Props.
Context {L : lib}.

(* A schema is converted exactly when the shape asked for is, after following references, a shape without inverse constraints
   and references to triple expressions, and, if there are prefixes, every IRI that is a predicate starts with a namespace. *)
Theorem C88_converts (this : string) (sch : schema) (sh : option iriref) : prefixes_fine sch ->
  (exists f q, convert this sch f sh = Some (Ok q)) <-> exists e te, chosen sch sh e /\ reaches sch e te /\ convertible sch te.
Proof.
  intro PF. split.
  - intros (f & q & E). destruct (proj1 (convert_iff this sch PF sh q) (ex_intro _ f E)) as (e & te & ps & CH & R & O & _). exists e, te. split; [exact CH|]. split; [exact R|]. apply (of_shape_ok this). eauto.
  - intros (e & te & CH & R & C). apply (of_shape_ok this) in C. destruct C as (ps & O). destruct (proj2 (convert_iff this sch PF sh {| q_prefixes := s_prefixes sch; q_base := s_base sch; q_patterns := ps |})) as (f & E); [exists e, te, ps; auto|]. eauto.
Qed.

(* The patterns are those of the constraints, in order, each with the focus variable for its subject. *)
Theorem C88_patterns (this : string) (sch : schema) (sh : option iriref) (f : nat) (q : query) (e : sexpr) (te : texpr) : prefixes_fine sch ->
  chosen sch sh e -> reaches sch e (Some te) -> convert this sch f sh = Some (Ok q) ->
  List.map t_pred (q_patterns q) = List.map fst (constraints te) /\ Forall (fun t => t_subj t = this) (q_patterns q) /\ q_prefixes q = s_prefixes sch /\ q_base q = s_base sch.
Proof.
  intros PF CH R E. destruct (proj1 (convert_iff this sch PF sh q) (ex_intro _ f E)) as (e' & te' & ps & CH' & R' & O & ->). rewrite (chosen_fun sch PF _ _ _ CH' CH) in R'. rewrite (reaches_fun sch PF _ _ _ R' R) in O.
  cbn [of_shape] in O. destruct (triple_expr2patterns this sch te 0) as [[ps' m]| |] eqn:P; cbn in O; try discriminate. injection O as ->. destruct (te_good this sch _ _ _ _ P) as (A & B & _). auto.
Qed.

(* Every answer has a value for every property of the shape. *)
Theorem C88_answers_have {T} (g : T -> string -> T -> Prop) (this : string) (sch : schema) (sh : option iriref) (f : nat) (q : query) (e : sexpr) (te : option texpr) (n : T) : prefixes_fine sch ->
  chosen sch sh e -> reaches sch e te -> convert this sch f sh = Some (Ok q) -> answer g this q n -> has_all g sch te n.
Proof.
  intros PF CH R E A. destruct (proj1 (convert_iff this sch PF sh q) (ex_intro _ f E)) as (e' & te' & ps & CH' & R' & O & ->). rewrite (chosen_fun sch PF _ _ _ CH' CH) in R'. rewrite (reaches_fun sch PF _ _ _ R' R) in O.
  exact (answer_has this sch g te ps n O A).
Qed.

(* The answers are the nodes with a value for every property, if different properties have different local names and none is
   named like the focus variable.  The full statement is without this condition: it is refuted below. *)
Theorem C88_answers_partial {T} (g : T -> string -> T -> Prop) (this : string) (sch : schema) (sh : option iriref) (f : nat) (q : query) (e : sexpr) (te : option texpr) (n : T) : prefixes_fine sch ->
  chosen sch sh e -> reaches sch e te -> apart this sch te -> focus_apart this sch -> convert this sch f sh = Some (Ok q) -> (answer g this q n <-> has_all g sch te n).
Proof.
  intros PF CH R AP FA E. split; [exact (C88_answers_have g this sch sh f q e te n PF CH R E)|]. intro H. destruct (proj1 (convert_iff this sch PF sh q) (ex_intro _ f E)) as (e' & te' & ps & CH' & R' & O & ->). rewrite (chosen_fun sch PF _ _ _ CH' CH) in R'.
  rewrite (reaches_fun sch PF _ _ _ R' R) in O. exact (has_answer this sch PF g te ps n O AP FA H).
Qed.

(* The nodes that have a shape are answers, if every constraint has to be matched.  The full statement is without this
   condition: it is refuted below. *)
Theorem C88_found_partial {T} (g : T -> string -> T -> Prop) (value : sexpr -> T -> Prop) (this : string) (sch : schema) (sh : option iriref) (f : nat) (q : query) (e : sexpr) (te : option texpr) closed extra (n : T) arcs : prefixes_fine sch ->
  chosen sch sh e -> reaches sch e te -> apart this sch te -> focus_apart this sch -> convert this sch f sh = Some (Ok q) ->
  (forall te', te = Some te' -> required te') -> outgoing g n arcs -> has_shape value (prefixes_of sch) closed extra te arcs -> answer g this q n.
Proof.
  intros PF CH R AP FA E RQ OG H. apply (C88_answers_partial g this sch sh f q e te n PF CH R AP FA E). exact (shape_has_all g value sch closed extra te n arcs OG RQ H).
Qed.

(* Answers have the shape, if it asks for any number of values of any kind, once for every property, and is open.  The full
   statement is for all shapes: it is refuted below. *)
Theorem C88_conform_partial {T} (g : T -> string -> T -> Prop) (value : sexpr -> T -> Prop) (this : string) (sch : schema) (sh : option iriref) (f : nat) (q : query) (e : sexpr) (te : texpr) closed extra (n : T) arcs : prefixes_fine sch ->
  chosen sch sh e -> reaches sch e (Some te) -> convert this sch f sh = Some (Ok q) -> unrestricted te -> once (prefixes_of sch) te -> closed <> Some true ->
  outgoing g n arcs -> answer g this q n -> has_shape value (prefixes_of sch) closed extra (Some te) arcs.
Proof.
  intros PF CH R E U O NC OG A. apply (has_all_shape g value sch PF extra te n arcs closed NC OG U); [|exact O|exact (C88_answers_have g this sch sh f q e (Some te) n PF CH R E A)].
  destruct (proj1 (C88_converts this sch sh PF) (ex_intro _ f (ex_intro _ q E))) as (e' & te' & CH' & R' & C). rewrite (chosen_fun sch PF _ _ _ CH' CH) in R'. rewrite (reaches_fun sch PF _ _ _ R' R) in C. apply (C te eq_refl).
Qed.

(* The text of a query with prefixes and without a base whose predicates are IRIs: the prefixes, the keywords and the patterns,
   with texts that stand for the predicates.  The full statement is for all queries: it is refuted below. *)
Theorem C88_text_partial (q : query) (pm : list (string * string)) : q_prefixes q = Some pm -> q_base q = None -> Forall (fun t => is_iri (t_pred t)) (q_patterns q) ->
  exists prefixes lines, prefix_lines pm prefixes /\ pattern_lines pm (q_patterns q) lines /\
    show_query q = Some (prefixes ++ newline ++ "SELECT * WHERE {" ++ newline ++ lines ++ "}" ++ newline).
Proof.
  intros E B F. destruct (patterns_text pm (q_patterns q) F) as (r & S & P). exists (show_prefixes pm), r. split; [clear; induction pm as [|[a i] pm IH]; [apply L_nil|apply L_cons, IH]|]. split; [exact P|]. unfold show_query. rewrite E, B, S. reflexivity.
Qed.
End Props.
Print Assumptions C88_converts.
Print Assumptions C88_patterns.
Print Assumptions C88_answers_have.
Print Assumptions C88_answers_partial.
Print Assumptions C88_found_partial.
Print Assumptions C88_conform_partial.
Print Assumptions C88_text_partial.

(* ------------------------------------------------------------------ *)
(* Examples and refutations                                             *)

Definition lib0 : lib := {|
  dec := string; dbl := string; fnum := nat;
  show_dec := fun s => s; parse_dec := Some; show_dbl := fun s => s; parse_dbl := Some;
  write_fnum := fun _ => JNull; read_fnum := fun _ => Err;
  iri_ok := fun s => String.prefix "http://" s; lang_new := fun _ => None |}.
#[local] Existing Instance lib0.

Definition pm0 : list (string * string) := [("ex", "http://e/"); ("", "http://d/"); ("exs", "http://e/s/")].
Definition one (p : iriref) (ve : option sexpr) (mn mx : option Z) : texpr := TTriple None None None p ve mn mx None None.
Definition group (l : list texpr) : texpr := TEach None l None None None None.
Definition plain (te : texpr) : sexpr := SShape None None (Some te) None None None.
Definition sch0 (pm : option (list (string * string))) (e : sexpr) : schema := {|
  s_context := ""; s_type := "Schema"; s_imports := None; s_start := None; s_acts := None;
  s_shapes := Some [{| d_type := "ShapeDecl"; d_abstract := false; d_id := LIri (Iri "http://e/S"); d_expr := e |}];
  s_prefixes := pm; s_base := None; s_source := "" |}.
Lemma fine0 e : prefixes_fine (sch0 (Some pm0) e).
Proof. repeat constructor; cbn; intuition discriminate. Qed.
Lemma fine1 e : prefixes_fine (sch0 None e).
Proof. constructor. Qed.

(* A shape whose query is exact: the hypotheses of all the theorems are met. *)
Definition p1 : iriref := Iri "http://e/s/name".
Definition p2 : iriref := Iri "http://d/knows".
Definition te0 : texpr := group [one p1 None (Some 1%Z) (Some (-1)%Z); one p2 None None (Some (-1)%Z)].
Definition q0 : query := {| q_prefixes := Some pm0; q_base := None; q_patterns := [{| t_subj := "this"; t_pred := p1; t_obj := "name" |}; {| t_subj := "this"; t_pred := p2; t_obj := "knows" |}] |}.
Lemma strip_name pm i v w : qualify_local pm i = Some w -> named_after pm i v -> v = w.
Proof. intros Q V. apply qualify_local_iff in Q. exact (named_fun pm i v w V Q). Qed.
Lemma te0_mentions p : mentions te0 p -> p = p1 \/ p = p2.
Proof. intros (ve & K). cbn in K. destruct K as [[= <- <-]|[[= <- <-]|[]]]; auto. Qed.
Example C88_met : let sch := sch0 (Some pm0) (plain te0) in
  prefixes_fine sch /\ chosen sch None (plain te0) /\ chosen sch (Some (Prefixed "ex" "S")) (plain te0) /\ reaches sch (plain te0) (Some te0) /\ convertible sch (Some te0) /\
  apart "this" sch (Some te0) /\ focus_apart "this" sch /\ required te0 /\ unrestricted te0 /\ once (prefixes_of sch) te0 /\
  convert "this" sch 1 None = Some (Ok q0) /\ convert "this" sch 1 (Some (Prefixed "ex" "S")) = Some (Ok q0) /\ Forall (fun t => is_iri (t_pred t)) (q_patterns q0).
Proof.
  cbv zeta. set (sch := sch0 (Some pm0) (plain te0)).
  assert (C1 : chosen sch None (plain te0)) by (right; split; [reflexivity|]; do 2 eexists; split; reflexivity).
  assert (C2 : chosen sch (Some (Prefixed "ex" "S")) (plain te0)) by (apply (by_iri_iff sch (fine0 _)); vm_compute; reflexivity).
  assert (R : reaches sch (plain te0) (Some te0)) by constructor. assert (E : convert "this" sch 1 None = Some (Ok q0)) by (vm_compute; reflexivity).
  split; [apply fine0|]. split; [exact C1|]. split; [exact C2|]. split; [exact R|]. split.
  { destruct (proj1 (C88_converts "this" sch None (fine0 _)) (ex_intro _ 1 (ex_intro _ q0 E))) as (e & te & CH & R' & C). rewrite (chosen_fun sch (fine0 _) _ _ _ CH C1) in R'. rewrite (reaches_fun sch (fine0 _) _ _ _ R' R) in C. exact C. }
  assert (N1 : forall v, name_of pm0 p1 v -> v = "name") by (intros v K; apply (strip_name pm0 "http://e/s/name" v "name" eq_refl K)).
  assert (N2 : forall v, name_of pm0 p2 v -> v = "knows") by (intros v K; apply (strip_name pm0 "http://d/knows" v "knows" eq_refl K)).
  split.
  { intros te' pm [= <-] [= <-]. split.
    - intros p M K. apply te0_mentions in M. destruct M as [->| ->]; [apply N1 in K|apply N2 in K]; discriminate K.
    - intros p p' v i i' M M' K K' ST ST'. apply te0_mentions in M, M'. destruct M as [->| ->], M' as [->| ->]; cbn in ST, ST'; [congruence| | |congruence].
      + apply N1 in K. apply N2 in K'. congruence.
      + apply N2 in K. apply N1 in K'. congruence. }
  split; [intros [=]|]. split; [cbn; lia|]. split; [cbn; repeat split; try discriminate; try lia; auto|]. split.
  { intros l1 c l2 c' l3 i EQ ST ST'. cbn in EQ. destruct l1 as [|x l1]; [|destruct l1 as [|y l1]; [|destruct l1; discriminate EQ]].
    - injection EQ as <- EQ. destruct l2 as [|y l2]; [|destruct l2; discriminate EQ]. injection EQ as <- EQ. cbn in ST, ST'. rewrite ST in ST'. discriminate ST'.
    - injection EQ as <- <- EQ. destruct l2; discriminate EQ. }
  split; [exact E|]. split; [vm_compute; reflexivity|]. repeat constructor; eexists; reflexivity.
Qed.
Example C88_text : show_query q0 = Some ("prefix ex: <http://e/>" ++ newline ++ "prefix : <http://d/>" ++ newline ++ "prefix exs: <http://e/s/>" ++ newline ++ newline ++ "SELECT * WHERE {" ++ newline ++
  " ?this exs:name ?name ." ++ newline ++ " ?this :knows ?knows ." ++ newline ++ "}" ++ newline).
Proof. vm_compute. reflexivity. Qed.
(* A reference is followed; without prefixes the variables are numbered. *)
Example C88_reference : convert "this" (sch0 None (SRef (LIri (Iri "http://e/T")))) 5 None = Some Err /\
  convert "this" {| s_context := ""; s_type := "Schema"; s_imports := None; s_start := Some (SRef (LIri (Iri "http://e/S"))); s_acts := None;
     s_shapes := s_shapes (sch0 None (plain (group [one (Iri "http://e/a") None None None; TOne None [one (Iri "http://e/b") None None None; one (Iri "http://e/a") None None None] None None None None]))); s_prefixes := None; s_base := Some "http://b"; s_source := "" |} 2 None
  = Some (Ok {| q_prefixes := None; q_base := Some "http://b"; q_patterns := [{| t_subj := "this"; t_pred := Iri "http://e/a"; t_obj := "var1" |}; {| t_subj := "this"; t_pred := Iri "http://e/b"; t_obj := "var2" |}; {| t_subj := "this"; t_pred := Iri "http://e/a"; t_obj := "var3" |}] |}).
Proof. split; vm_compute; reflexivity. Qed.

(* Graphs of numbers. *)
Definition graph (l : list (nat * string * nat)) (s : nat) (p : string) (o : nat) : Prop := In (s, p, o) l.

(* Properties with the same local name get one variable, so that both must have the same value. *)
Theorem C88_answers_refuted : exists sch e te q n g, prefixes_fine sch /\ chosen sch None e /\ reaches sch e (Some te) /\ convert "this" sch 1 None = Some (Ok q) /\
  has_all (T := nat) g sch (Some te) n /\ ~ answer g "this" q n.
Proof.
  set (te := group [one (Iri "http://e/name") None None None; one (Iri "http://d/name") None None None]).
  exists (sch0 (Some pm0) (plain te)), (plain te), te. eexists. exists 0, (graph [(0, "http://e/name", 1); (0, "http://d/name", 2)]). split; [apply fine0|]. split; [right; split; [reflexivity|]; do 2 eexists; split; reflexivity|]. split; [constructor|].
  split; [vm_compute; reflexivity|]. split.
  - intros te' p [= <-] (ve & [[= <- <-]|[[= <- <-]|[]]]); [exists "http://e/name", 1|exists "http://d/name", 2]; (split; [reflexivity|]); [left|right; left]; reflexivity.
  - intros (mu & MT & M). destruct (M _ (or_introl eq_refl)) as (i & ST & G). destruct (M _ (or_intror (or_introl eq_refl))) as (i' & ST' & G'). cbn in ST, ST', G, G'. subst i i'. destruct G as [G|[G|[]]], G' as [G'|[G'|[]]]; congruence.
Qed.
(* A property named like the focus variable has to have the node itself for its value. *)
Theorem C88_focus_refuted : exists sch e te q n g, prefixes_fine sch /\ chosen sch None e /\ reaches sch e (Some te) /\ convert "this" sch 1 None = Some (Ok q) /\
  has_all (T := nat) g sch (Some te) n /\ ~ answer g "this" q n.
Proof.
  set (te := one (Iri "http://e/this") None None None).
  exists (sch0 (Some pm0) (plain te)), (plain te), te. eexists. exists 0, (graph [(0, "http://e/this", 1)]). split; [apply fine0|]. split; [right; split; [reflexivity|]; do 2 eexists; split; reflexivity|]. split; [constructor|].
  split; [vm_compute; reflexivity|]. split.
  - intros te' p [= <-] (ve & [[= <- <-]|[]]). exists "http://e/this", 1. split; [reflexivity|]. left. reflexivity.
  - intros (mu & MT & M). destruct (M _ (or_introl eq_refl)) as (i & ST & G). cbn in ST, G. subst i. rewrite MT in G. destruct G as [G|[]]. congruence.
Qed.

(* Nodes with a shape are missed if a property is optional or one of a choice. *)
Definition missed (te : texpr) (l : list (nat * string * nat)) (arcs : list (string * nat)) : Prop :=
  exists q, convert "this" (sch0 (Some pm0) (plain te)) 1 None = Some (Ok q) /\ outgoing (graph l) 0 arcs /\ has_shape (fun _ _ => True) pm0 None None (Some te) arcs /\ ~ answer (graph l) "this" q 0.
Theorem C88_found_refuted : missed (group [one (Iri "http://e/a") None None None; one (Iri "http://e/b") None (Some 0%Z) None]) [(0, "http://e/a", 1)] [("http://e/a", 1)] /\
  missed (TOne None [one (Iri "http://e/a") None None None; one (Iri "http://e/b") None None None] None None None None) [(0, "http://e/a", 1)] [("http://e/a", 1)].
Proof.
  assert (OG : outgoing (graph [(0, "http://e/a", 1)]) 0 [("http://e/a", 1)]).
  { split; [constructor; [intros []|constructor]|]. intros p o. unfold graph. cbn. split; [intros [[= <- <-]|[]]; left; reflexivity|intros [[= <- <-]|[]]; left; reflexivity]. }
  split.
  - eexists. split; [vm_compute; reflexivity|]. split; [exact OG|]. split.
    + exists [("http://e/a", 1)], []. split; [apply Permutation_refl|]. split; [|intros i o []]. cbn. exists [[("http://e/a", 1)]]. split; [apply Permutation_refl|]. split; [split; cbn; lia|]. constructor; [|constructor].
      exists [("http://e/a", 1)], []. split; [apply Permutation_refl|]. split; [repeat split; try discriminate; cbn; try lia; repeat constructor|]. exists [], []. split; [constructor|]. split; [repeat split; try discriminate; cbn; try lia; repeat constructor|reflexivity].
    + intros (mu & MT & M). destruct (M _ (or_intror (or_introl eq_refl))) as (i & ST & G). cbn in ST, G. subst i. destruct G as [G|[]]. congruence.
  - eexists. split; [vm_compute; reflexivity|]. split; [exact OG|]. split.
    + exists [("http://e/a", 1)], []. split; [apply Permutation_refl|]. split; [|intros i o []]. cbn. exists [[("http://e/a", 1)]]. split; [apply Permutation_refl|]. split; [split; cbn; lia|]. constructor; [|constructor]. left. repeat split; try discriminate; cbn; try lia; repeat constructor.
    + intros (mu & MT & M). destruct (M _ (or_intror (or_introl eq_refl))) as (i & ST & G). cbn in ST, G. subst i. destruct G as [G|[]]. congruence.
Qed.

(* Answers need not have the shape: numbers and values are not asked for. *)
Definition wrong (value : sexpr -> nat -> Prop) (te : texpr) (l : list (nat * string * nat)) (arcs : list (string * nat)) : Prop :=
  exists q, convert "this" (sch0 (Some pm0) (plain te)) 1 None = Some (Ok q) /\ outgoing (graph l) 0 arcs /\ answer (graph l) "this" q 0 /\ ~ has_shape value pm0 None None (Some te) arcs.
Theorem C88_conform_refuted : wrong (fun _ _ => True) (one (Iri "http://e/a") None None None) [(0, "http://e/a", 1); (0, "http://e/a", 2)] [("http://e/a", 1); ("http://e/a", 2)] /\
  wrong (fun _ _ => False) (one (Iri "http://e/a") (Some SExternal) None None) [(0, "http://e/a", 1)] [("http://e/a", 1)].
Proof.
  split.
  - eexists. split; [vm_compute; reflexivity|]. split; [|split].
    + split; [repeat constructor; cbn; intuition discriminate|]. intros p o. unfold graph. cbn. intuition (try congruence); match goal with H : (_, _) = (_, _) |- _ => injection H as <- <-; auto | _ => idtac end.
    + exists (fun v => if String.eqb v "this" then 0 else 1). split; [reflexivity|]. intros t [<-|[]]. exists "http://e/a". split; [reflexivity|]. left. reflexivity.
    + intros (taken & rest & P & M & H). cbn in M. destruct M as (_ & _ & (W1 & W2) & F). assert (LE : List.length taken + List.length rest = 2) by (apply Permutation_length in P; rewrite app_length in P; cbn in P; lia).
      destruct rest as [|[i o] rest]; [cbn in LE; lia|]. assert (K : In (i, o) [("http://e/a", 1); ("http://e/a", 2)]) by (apply (Permutation_in _ (Permutation_sym P)), in_or_app; right; left; reflexivity).
      assert (i = "http://e/a") as -> by (cbn in K; destruct K as [K|[K|[]]]; congruence). destruct (H "http://e/a" o (or_introl eq_refl)) as [H1 _]. destruct (H1 _ (Iri "http://e/a") None eq_refl (or_introl eq_refl) eq_refl) as [(l & x & [=] & _) _].
  - eexists. split; [vm_compute; reflexivity|]. split; [|split].
    + split; [constructor; [intros []|constructor]|]. intros p o. unfold graph. cbn. split; [intros [[= <- <-]|[]]; left; reflexivity|intros [[= <- <-]|[]]; left; reflexivity].
    + exists (fun v => if String.eqb v "this" then 0 else 1). split; [reflexivity|]. intros t [<-|[]]. exists "http://e/a". split; [reflexivity|]. left. reflexivity.
    + intros (taken & rest & P & M & H). cbn in M. destruct M as (_ & _ & (W1 & _) & F). destruct taken as [|[i o] taken]; [cbn in W1; lia|]. inversion F as [|? ? [_ V] _]; subst. exact V.
Qed.

(* Following references need not end. *)
Theorem C88_ends_refuted : exists sch, forall f, convert "this" sch f None = None.
Proof.
  exists (sch0 (Some pm0) (SRef (LIri (Iri "http://e/S")))). intro f. assert (H : shape_expr2patterns "this" (sch0 (Some pm0) (SRef (LIri (Iri "http://e/S")))) f (SRef (LIri (Iri "http://e/S"))) = None).
  { induction f as [|f IH]; [reflexivity|]. cbn [shape_expr2patterns find_shape_by_label]. assert (F : find_shape_by_iri_ref (sch0 (Some pm0) (SRef (LIri (Iri "http://e/S")))) (Iri "http://e/S") = Ok (Some (SRef (LIri (Iri "http://e/S"))))) by (vm_compute; reflexivity). rewrite F. exact IH. }
  unfold convert. cbn [s_start sch0 s_shapes d_expr]. unfold shape_expr2query. rewrite H. reflexivity.
Qed.

(* Inverse constraints, references, the label of the start shape and predicates outside all namespaces bring the conversion
   down. *)
Theorem C88_total_refuted : exists tes : list texpr, List.length tes = 3 /\ Forall (fun te => convert "this" (sch0 (Some pm0) (plain te)) 1 None = Some Panic) tes /\
  convert "this" (sch0 None (SRef LStart)) 1 None = Some Panic /\ convert "this" (sch0 None (SRef (LBNode "b"))) 1 None = Some Panic.
Proof.
  exists [TTriple None None (Some true) (Iri "http://e/a") None None None None None; TRef (TLIri (Iri "http://e/a")); one (Iri "http://other/a") None None None].
  split; [reflexivity|]. split; [repeat constructor|]. split; reflexivity.
Qed.

(* Texts that are no queries: without prefixes there are no keywords; a base is a line with just its IRI; the IRI of a prefixed
   name has no brackets; local names can have characters that names and variables cannot have. *)
Definition text (pm : option (list (string * string))) (base : option string) (p : iriref) (v : string) : option string :=
  show_query {| q_prefixes := pm; q_base := base; q_patterns := [{| t_subj := "this"; t_pred := p; t_obj := v |}] |}.
Theorem C88_text_refuted :
  convert "this" (sch0 None (plain (one (Iri "http://e/a") None None None))) 1 None = Some (Ok {| q_prefixes := None; q_base := None; q_patterns := [{| t_subj := "this"; t_pred := Iri "http://e/a"; t_obj := "var1" |}] |}) /\
  text None None (Iri "http://e/a") "var1" = Some ("?this <http://e/a> ?var1 .}" ++ newline) /\
  text (Some []) (Some "http://b/") (Iri "http://e/a") "a" = Some ("http://b/" ++ newline ++ newline ++ "SELECT * WHERE {" ++ newline ++ " ?this <http://e/a> ?a ." ++ newline ++ "}" ++ newline) /\
  text (Some [("ex", "http://e/")]) None (Prefixed "ex" "a") "a" = Some ("prefix ex: <http://e/>" ++ newline ++ newline ++ "SELECT * WHERE {" ++ newline ++ " ?this http://e/a ?a ." ++ newline ++ "}" ++ newline) /\
  convert "this" (sch0 (Some [("ex", "http://e/")]) (plain (one (Iri "http://e/a/b") None None None))) 1 None = Some (Ok {| q_prefixes := Some [("ex", "http://e/")]; q_base := None; q_patterns := [{| t_subj := "this"; t_pred := Iri "http://e/a/b"; t_obj := "a/b" |}] |}) /\
  text (Some [("ex", "http://e/")]) None (Iri "http://e/a/b") "a/b" = Some ("prefix ex: <http://e/>" ++ newline ++ newline ++ "SELECT * WHERE {" ++ newline ++ " ?this ex:a/b ?a/b ." ++ newline ++ "}" ++ newline).
Proof. repeat split; vm_compute; reflexivity. Qed.
Print Assumptions C88_answers_refuted.
Print Assumptions C88_focus_refuted.
Print Assumptions C88_found_refuted.
Print Assumptions C88_conform_refuted.
Print Assumptions C88_ends_refuted.
Print Assumptions C88_total_refuted.
Print Assumptions C88_text_refuted.
