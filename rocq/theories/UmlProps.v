(* Diagrams of schemas: properties. *)
From Coq Require Import List String Bool Arith ZArith Lia.
Import ListNotations.
From Verif Require Import UmlModel UmlSpec UmlLemmas UmlSteps.
Open Scope string_scope.

(* A schema is drawn if and only if each of its shapes has a picture.  The full statement is for all cardinalities. *)
Theorem C97_draws_partial {L : lib} ds : ordinary ds -> ((exists u, convert ds empty = Ok u) <-> Forall (fun d => exists p, pictured d p) ds).
Proof.
  intros O. pose proof (convert_good ds empty good_empty O) as H. destruct (convert ds empty) as [u| |]; split.
  - intros _. destruct H as (ps & _ & _ & P & _). induction P; constructor; eauto.
    apply IHP. intros d s ts t I. exact (O d s ts t (or_intror I)).
  - eauto.
  - intros (u & [=]).
  - intros F. destruct (H F).
  - intros (u & [=]).
  - intros F. destruct (H F).
Qed.
Print Assumptions C97_draws_partial.

(* A diagram shows the pictures: the arrows of all shapes in order (besides those of operators to their members), the arcs of EXTENDS in order,
   a class for the last shape of each name with its lines, and no other classes but those that are extended.
   Names and nodes are one to one.  The full statement is for all cardinalities. *)
Theorem C97_diagram_partial {L : lib} ds u : ordinary ds -> convert ds empty = Ok u ->
  (forall s t n m, node_of u s n -> node_of u t m -> (s = t <-> n = m)) /\ NoDup (List.map fst (components u)) /\
  exists ps, Forall2 pictured ds ps /\ shown u (links u) (flat_map p_arrows ps) /\
    Forall2 (fun x y => node_of u (fst y) (fst x) /\ node_of u (snd y) (snd x)) (extends u) (flat_map extensions ps) /\
    (forall p, last_of p ps -> has_class u p) /\
    (forall n c, In (n, Class_ c) (components u) -> node_of u (n_str (c_name c)) n /\
       exists p, In p ps /\ ((c_name c = p_name p /\ c_entries c = p_entries p) \/ (In (n_str (c_name c)) (p_extends p) /\ c_entries c = [] /\ c_extends c = []))).
Proof.
  intros O E. pose proof (convert_good ds empty good_empty O) as H. rewrite E in H.
  destruct H as (ps & ls & es & P & G & _ & Ls & S & Es & J & H & _ & M). cbn in Ls, Es. subst ls es. split; [|split].
  - intros s t n m A B. split; intros ->; [exact (g_labels u G _ _ _ A B)|]. pose proof (g_nodes u G _ _ _ A B) as X. now injection X.
  - exact (g_keys u G).
  - exists ps. split; [exact P|split; [exact S|split; [exact J|split]]].
    + intros p (l & r & X & Y). exact (H l p r X Y).
    + intros n c I. split; [exact (g_class u G n c I)|]. destruct (M n c I) as [[]|(p & X & Y)]. exists p. auto.
Qed.
Print Assumptions C97_diagram_partial.

(* Around a node: the links and arcs that touch it, and the components at their ends.  The full statement is for all cardinalities. *)
Theorem C97_around_partial {L : lib} ds u t : ordinary ds -> convert ds empty = Ok u ->
  (forall l, In l (dr_links (draw_around t u)) <-> In l (links u) /\ (l_source l = t \/ l_target l = t)) /\
  (forall a b, In (a, b) (dr_extends (draw_around t u)) <-> In (a, b) (extends u) /\ (a = t \/ b = t)) /\
  (forall n c, In (n, c) (dr_components (draw_around t u)) <-> In (n, c) (components u) /\ touches u t n).
Proof.
  intros O E. pose proof (convert_good ds empty good_empty O) as H. rewrite E in H. destruct H as (_ & _ & _ & _ & G & _). cbn. split; [|split].
  - intros l. rewrite filter_In, orb_true_iff, !Nat.eqb_eq. reflexivity.
  - intros a b. rewrite filter_In, orb_true_iff. cbn. rewrite !Nat.eqb_eq. reflexivity.
  - assert (MP : forall a b l, mem_pair a b l = true <-> In (a, b) l).
    { intros a b l. unfold mem_pair. rewrite existsb_exists. split.
      - intros ([x y] & I & K). cbn in K. apply andb_true_iff in K. rewrite !Nat.eqb_eq in K. destruct K as [-> ->]. exact I.
      - intros I. exists (a, b). split; [exact I|]. cbn. now rewrite !Nat.eqb_refl. }
    intros n c. rewrite filter_In. cbn [fst]. rewrite !orb_true_iff, !MP, Nat.eqb_eq, (g_out u G), (g_in u G). unfold touches. split.
    + intros [I [[[[K|K]|K]|(l & K & A)]|(l & K & A)]]; (split; [exact I|]); [now left|auto|auto| |]; right; left; exists l; auto.
    + intros [I [K|[(l & K & [A|A])|[K|K]]]]; (split; [exact I|]); [auto|left; right; eauto|right; eauto|auto|auto].
Qed.
Print Assumptions C97_around_partial.

(* A schema with all of it. *)
Definition lib1 : lib := {| qualify := fun i => i; resolve := fun p l => if String.eqb p "a" || String.eqb p "b" then Some ("http://e/" ++ l) else None |}.
Definition pre (p l : string) : iriref := Prefixed p l.
Definition one (p : string) (v : option sexpr) (min max : option Z) : tc :=
  {| tc_inverse := false; tc_negated := false; tc_pred := pre "a" p; tc_label := None; tc_value := v; tc_min := min; tc_max := max |}.
Definition a_shape (n : string) (xs : list slabel) (e : option texpr) : decl := {| d_id := LIri (pre "a" n); d_expr := Some {| sh_label := None; sh_extends := xs; sh_expr := e |} |}.
Definition ref (n : string) : sexpr := SRef (LIri (pre "a" n)).
Definition dtype (n : string) : sexpr := SNode {| nc_kind := None; nc_datatype := Some (pre "a" n); nc_facets := None; nc_values := None |}.
Definition ds1 : schema :=
  [a_shape "Person" [LIri (pre "a" "Thing")]
     (Some (EachOf [TC (one "name" (Some (dtype "string")) None None); TC (one "knows" (Some (ref "Person")) (Some 0%Z) (Some (-1)%Z));
                    TC (one "likes" (Some (SOr [ref "Person"; ref "Thing"])) (Some 1%Z) (Some (-1)%Z)); TC (one "avoids" (Some (SOr [ref "Person"; ref "Thing"])) None None)] None None));
   a_shape "Thing" [] (Some (TC (one "id" None (Some 0%Z) (Some 1%Z))))].
Example C97_met : ordinary ds1 /\ exists u, convert (L := lib1) ds1 empty = Ok u /\
  List.map (fun l => (l_source l, l_target l, n_str (l_name l), l_card l)) (links u) =
    [(1, 1, "a:knows", Star); (3, 1, "member", OneOne); (3, 2, "member", OneOne); (1, 3, "a:likes", Plus); (1, 3, "a:avoids", OneOne)] /\
  extends u = [(1, 2)] /\ List.map (fun x => match snd x with Class_ c => (fst x, n_str (c_name c), List.map (fun e => n_str (e_name e)) (c_entries c)) | Logic _ _ => (fst x, "", []) end) (components u) =
    [(3, "", []); (2, "a:Thing", ["a:id"]); (1, "a:Person", ["a:name"])] /\
  List.map fst (dr_components (draw_around 2 u)) = [3; 2; 1] /\ List.length (dr_links (draw_around 2 u)) = 1.
Proof.
  split; [|eexists; split; [vm_compute; reflexivity|repeat split; vm_compute; reflexivity]].
  intros d s ts t [<-|[<-|[]]] [= <-] C I; cbn in C.
  - inversion C as [| |us mi ma E]; subst.
    assert (ts = [one "name" (Some (dtype "string")) None None; one "knows" (Some (ref "Person")) (Some 0%Z) (Some (-1)%Z);
                  one "likes" (Some (SOr [ref "Person"; ref "Thing"])) (Some 1%Z) (Some (-1)%Z); one "avoids" (Some (SOr [ref "Person"; ref "Thing"])) None None]) as ->
      by (apply map_TC; first [assumption|symmetry; assumption]).
    destruct I as [<-|[<-|[<-|[<-|[]]]]]; split; cbn; auto.
  - inversion C; subst. destruct I as [<-|[]]. split; cbn; auto.
Qed.

(* Other cardinalities. *)
Theorem C97_cardinality_refuted : exists min max c, mk_card min max = Ok c /\ ~ says_card c min max.
Proof. exists (Some 2%Z), (Some 5%Z), (Fixed 2). split; [reflexivity|]. cbn. lia. Qed.
Print Assumptions C97_cardinality_refuted.
Definition only (t : tc) : schema := [a_shape "S" [] (Some (TC t))].
Definition short (p : string) : name := {| n_str := "a:" ++ p; n_href := Some ("http://e/" ++ p); n_label := None |}.
Theorem C97_exactly_refuted : exists (L : lib) ds, Forall (fun d => exists p, pictured d p) ds /\ convert ds empty = Err.
Proof.
  exists lib1, (only (one "p" None (Some 2%Z) (Some 2%Z))). split; [|vm_compute; reflexivity]. constructor; [|constructor].
  exists {| p_name := short "S"; p_entries := [{| e_name := short "p"; e_constraint := Any; e_card := Fixed 2 |}]; p_extends := []; p_arrows := [] |}.
  assert (C : forall x, called (L := lib1) (pre "a" x) ("a:" ++ x) ("http://e/" ++ x)) by (intros x; exact (@Called_prefixed lib1 "a" x _ eq_refl)).
  eexists _, (short "S"), [one "p" None (Some 2%Z) (Some 2%Z)], []. split; [reflexivity|split; [constructor; eexists _, _; split; [apply C|reflexivity]|]].
  split; [reflexivity|split; [reflexivity|split; [reflexivity|split; [constructor|split; [|split; [constructor|reflexivity]]]]]].
  apply Pictures_line; [eexists _, _; split; [apply C|reflexivity]|constructor|cbn; auto|constructor].
Qed.
Print Assumptions C97_exactly_refuted.

(* Inverse and negated constraints, and repeated groups, are drawn as others are. *)
Theorem C97_inverse_refuted : exists (L : lib) t t' u, tc_inverse t = false /\ tc_inverse t' = true /\ tc_negated t' = true /\
  convert (only t) empty = Ok u /\ convert (only t') empty = Ok u.
Proof.
  exists lib1, (one "p" (Some (ref "S")) None None),
    {| tc_inverse := true; tc_negated := true; tc_pred := pre "a" "p"; tc_label := None; tc_value := Some (ref "S"); tc_min := None; tc_max := None |}.
  eexists. split; [reflexivity|split; [reflexivity|split; [reflexivity|split; vm_compute; reflexivity]]].
Qed.
Print Assumptions C97_inverse_refuted.
Theorem C97_group_refuted : exists (L : lib) l u, convert [a_shape "S" [] (Some (EachOf l None None))] empty = Ok u /\
  convert [a_shape "S" [] (Some (EachOf l (Some 0%Z) (Some 1%Z)))] empty = Ok u.
Proof. exists lib1, [TC (one "p" None None None)]. eexists. split; vm_compute; reflexivity. Qed.
Print Assumptions C97_group_refuted.

(* NOT of a datatype is an error where AND and OR of datatypes are not; alternatives panic. *)
Theorem C97_not_refuted : exists (L : lib) e, (exists u, convert (only (one "p" (Some (SAnd [e])) None None)) empty = Ok u) /\
  convert (only (one "p" (Some (SNot e)) None None)) empty = Err.
Proof. exists lib1, (dtype "int"). split; [eexists|]; vm_compute; reflexivity. Qed.
Print Assumptions C97_not_refuted.
Theorem C97_oneof_refuted : exists (L : lib) l, convert [a_shape "S" [] (Some (OneOf l None None))] empty = Panic.
Proof. exists lib1, [TC (one "p" None None None)]. vm_compute. reflexivity. Qed.
Print Assumptions C97_oneof_refuted.

(* An arrow may lead to nothing: to a shape that is not declared, or declared by another prefixed name of the same IRI. *)
Theorem C97_nothing_refuted : exists (L : lib) ds u l, convert ds empty = Ok u /\ In l (links u) /\ forall c, ~ In (l_target l, c) (components u).
Proof.
  exists lib1, (only (one "p" (Some (ref "T")) None None)). eexists. eexists. split; [vm_compute; reflexivity|]. split; [left; reflexivity|].
  cbn. intros c [[=]|[]].
Qed.
Print Assumptions C97_nothing_refuted.
Theorem C97_names_refuted : exists (L : lib) r r' s s' i ds u l, called r s i /\ called r' s' i /\ In r (flat_map (fun d => match d_id d with LIri x => [x] | _ => [] end) ds) /\
  convert ds empty = Ok u /\ In l (links u) /\ node_of u s' (l_target l) /\ forall c, ~ In (l_target l, c) (components u).
Proof.
  exists lib1, (pre "a" "S"), (pre "b" "S"), "a:S", "b:S", "http://e/S", (only (one "p" (Some (SRef (LIri (pre "b" "S")))) None None)). eexists. eexists.
  split; [exact (@Called_prefixed lib1 "a" "S" _ eq_refl)|split; [exact (@Called_prefixed lib1 "b" "S" _ eq_refl)|split; [left; reflexivity|]]].
  split; [vm_compute; reflexivity|]. split; [left; reflexivity|]. split; [left; reflexivity|]. cbn. intros c [[=]|[]].
Qed.
Print Assumptions C97_names_refuted.
