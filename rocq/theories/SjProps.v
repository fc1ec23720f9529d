(* C85: schemas written as JSON and read back. *)

From Coq Require Import List String Ascii NArith ZArith Bool Lia Arith Sorting.Sorted Sorting.Permutation.
From Verif Require Import SjModel SjSpec SjText SjLemmas SjNode SjTree SjAgain SjPanic.
Import ListNotations.
Open Scope string_scope.

(* Both sides are computed and compared by the kernel, without showing the results. *)
Ltac by_computing := match goal with |- ?a = ?b => exact (@eq_refl _ b <: a = b) end.

(* ------------------------------------------------------------------ *)
(* Libraries for the examples: decimals, doubles and the numbers of facets are
   kept as they are; an IRI is http:// and characters that IRIs may have; a
   language tag is made of lower case letters and hyphens. *)

Fixpoint every (p : ascii -> bool) (s : string) : bool :=
  match s with "" => true | String c s => p c && every p s end.

Definition iri_char (c : ascii) : bool :=
  negb (escaped c) && negb (Ascii.eqb c "<") && negb (Ascii.eqb c ">").

Definition tag_char (c : ascii) : bool :=
  ((97 <=? N_of_ascii c)%N && (N_of_ascii c <=? 122)%N) || Ascii.eqb c "-".

Definition demo : lib := {|
  dec := string; dbl := string; fnum := Z;
  show_dec := fun s => s; parse_dec := Some;
  show_dbl := fun s => s; parse_dbl := Some;
  write_fnum := JInt;
  read_fnum := fun j => match j with JInt z => Ok z | _ => Err end;
  iri_ok := fun s => prefix "http://" s && every iri_char s;
  lang_new := fun s => if negb (String.eqb s "") && every tag_char s then Some s else None
|}.

#[local] Existing Instance demo.

Lemma every_has p s c : every p s = true -> has c s -> p c = true.
Proof.
  unfold has. induction s as [|d s IH]; cbn; [intros _ []|]. intros H [->|Hin];
    apply andb_true_iff in H as [H1 H2]; auto.
Qed.

Lemma prefix_app p s : prefix p s = true -> exists r, s = p ++ r.
Proof.
  revert s. induction p as [|c p IH]; intros s; [intros _; now exists s|].
  destruct s as [|d s]; cbn; [discriminate|]. destruct (ascii_dec c d) as [->|]; [|discriminate].
  intros H. destruct (IH s H) as (r & ->). now exists r.
Qed.

Lemma demo_sound : @sound_lib demo.
Proof.
  split.
  - intros s H. apply andb_true_iff in H as [H _]. apply prefix_app in H as (r & ->).
    unfold has. cbn. tauto.
  - intros s H Hc. apply andb_true_iff in H as [_ H]. apply (every_has _ _ _ H) in Hc. discriminate.
  - intros s H. apply plain_spec. apply andb_true_iff in H as [_ H]. clear -H.
    induction s as [|c s IH]; [reflexivity|]. cbn in H |- *. apply andb_true_iff in H as [H1 H2].
    unfold iri_char in H1. rewrite IH by exact H2. destruct (escaped c); [discriminate|reflexivity].
  - intros s l H. cbn in *. destruct (_ && _) eqn:E; [|discriminate]. injection H as <-. now rewrite E.
  - intros s l H. cbn in *. destruct (_ && _) eqn:E; [|discriminate]. injection H as <-.
    apply andb_true_iff in E as [E1 E2]. split.
    + intros ->. discriminate.
    + intros Hc. apply (every_has _ _ _ E2) in Hc. discriminate.
  - reflexivity.
  - reflexivity.
  - intros j n H. destruct j; try discriminate. reflexivity.
Qed.

(* ------------------------------------------------------------------ *)
(* A schema with one shape expression, and one value of a value set     *)

Definition with_start (e : sexpr) : schema := {|
  s_context := "http://www.w3.org/ns/shex.jsonld"; s_type := "Schema";
  s_imports := None; s_start := Some e; s_acts := None; s_shapes := None;
  s_prefixes := None; s_base := None; s_source := "" |}.

Definition constraint (fs : option (list facet)) (vs : option (list value)) : nodec :=
  {| n_kind := None; n_datatype := None; n_facets := fs; n_values := vs |}.

Definition with_value (v : value) : schema := with_start (SNode (constraint None (Some [v]))).
Definition with_facets (fs : list facet) : schema := with_start (SNode (constraint (Some fs) None)).

Definition int_type : iriref := Iri "http://www.w3.org/2001/XMLSchema#integer".
Definition long_type : iriref := Iri "http://www.w3.org/2001/XMLSchema#long".

(* A schema with something of everything that survives. *)
Definition rich : schema := {|
  s_context := "http://www.w3.org/ns/shex.jsonld"; s_type := "Schema";
  s_imports := Some [IStr "http://e/other"];
  s_start := Some (SRef (LIri (Iri "http://e/S")));
  s_acts := Some [{| a_name := Iri "http://e/act"; a_code := Some "print" |}];
  s_shapes := Some
    [{| d_type := "ShapeDecl"; d_id := LIri (Iri "http://e/S"); d_abstract := false;
        d_expr := SAnd
          [SShape (Some true) (Some [Iri "http://e/p"])
             (Some (TEach (Some (TLIri (Iri "http://e/t")))
                [TTriple None None (Some true) (Iri "http://e/p")
                   (Some (SNode {| n_kind := Some NLiteral;
                                   n_datatype := Some (Prefixed "xsd" "string");
                                   n_facets := Some [FPattern "a" (Some "i"); FMinLength 1; FMaxIn 9%Z];
                                   n_values := Some
                                     [VIriRange None (Some [Whole (Iri "http://e/a"); Stem (Iri "http://e/b")]);
                                      VLitRange (Some "x") (Some [Stem "xy"; Whole "x:z"]);
                                      VLangRange (Some "en") (Some [Stem "en-gb"]);
                                      VLangStem None; VLang "fr"; VIriStem (Iri "http://e/"); VLitStem "q";
                                      VObj (ObjLit (LitNum (NumInt (-5)))); VObj (ObjLit (LitBool true));
                                      VObj (ObjLit (LitStr "h" (Some "en")));
                                      VObj (ObjLit (LitData "h" long_type));
                                      VObj (ObjIri (Iri "http://e/v"))] |}))
                   (Some 0%Z) (Some (-1)%Z) None
                   (Some [{| an_pred := Iri "http://e/n"; an_obj := ObjLit (LitStr "note" None) |}]);
                 TRef (TLIri (Iri "http://e/u"))]
                None None None None))
             None None (Some [LIri (Iri "http://e/B"); LBNode "x"]);
           SNot (SOr [SExternal; SRef (LBNode "x")])] |}];
  s_prefixes := Some [("", "http://e/"); ("xsd", "http://www.w3.org/2001/XMLSchema#")];
  s_base := Some "http://e/base";
  s_source := "" |}.

(* ------------------------------------------------------------------ *)
(* Full property: every schema that is written is read back,
     forall L s, r_schema (w_schema s) = Ok s.
   It is refuted below.  Exactly the writable schemas are read back. *)

Theorem C85_read_back_partial : forall (L : lib) (s : schema),
  r_schema (w_schema s) = Ok s <-> writable s.
Proof. intros L s. apply schema_iff. Qed.
Print Assumptions C85_read_back_partial.

Lemma rich_read : r_schema (w_schema rich) = Ok rich.
Proof. by_computing. Qed.

Example C85_met : writable rich.
Proof. apply C85_read_back_partial. exact rich_read. Qed.

(* Some schemas come back as others: an xsd:long becomes a literal that is no
   number, *)
Theorem C85_read_back_refuted : exists s t,
  r_schema (w_schema s) = Ok t /\ t <> s.
Proof.
  exists (with_value (VObj (ObjLit (LitNum (NumOther KLong "1"))))),
         (with_value (VObj (ObjLit (LitData "1" long_type)))).
  split; [by_computing|discriminate].
Qed.
Print Assumptions C85_read_back_refuted.

(* and the literals that the compact syntax has for numbers become numbers. *)
Example C85_integer_changed :
  r_schema (w_schema (with_value (VObj (ObjLit (LitData "01" int_type))))) =
  Ok (with_value (VObj (ObjLit (LitNum (NumInt 1))))).
Proof. by_computing. Qed.

Example C85_date_changed :
  r_schema (w_schema (with_value (VObj (ObjLit (LitDate "2020-01-01T00:00:00Z"))))) =
  Ok (with_value (VObj (ObjLit (LitData "2020-01-01T00:00:00Z"
                                  (Iri "http://www.w3.org/2001/XMLSchema#datetime"))))).
Proof. by_computing. Qed.

Example C85_label_changed :
  r_schema (w_schema (with_start (SRef (LIri (Iri "http://e/a_:b"))))) =
  Ok (with_start (SRef (LBNode "b"))).
Proof. by_computing. Qed.

Example C85_facets_changed :
  r_schema (w_schema (with_facets [FMaxLength 3; FMinLength 1])) =
  Ok (with_facets [FMinLength 1; FMaxLength 3]).
Proof. by_computing. Qed.

Example C85_no_facets_changed :
  r_schema (w_schema (with_facets [])) = Ok (with_start (SNode (constraint None None))).
Proof. by_computing. Qed.

(* Some schemas are written and cannot be read. *)
Theorem C85_readable_refuted : exists s, r_schema (w_schema s) = Err.
Proof. exists (with_start (SRef LStart)). by_computing. Qed.
Print Assumptions C85_readable_refuted.

Example C85_unreadable :
  Forall (fun s => r_schema (w_schema s) = Err)
    [with_start (SRef (LIri (Prefixed "e" "S")));
     with_start (SShape None None (Some (TRef (TLBNode "x"))) None None None);
     with_value (VObj (ObjIri (Prefixed "e" "v")));
     with_value (VObj (ObjLit (LitData "true or false" (Iri "http://www.w3.org/2001/XMLSchema#boolean"))));
     with_value (VObj (ObjLit (LitData "x" int_type)));
     with_value (VObj (ObjLit (LitNum (NumInt (2 ^ 63)))));
     with_value (VObj (ObjLit (LitWrong "x" int_type "no integer")));
     with_value (VIriRange (Some (Iri "http://e/")) None);
     with_value (VLitRange None (Some [Stem "a:b"]));
     with_facets [FLength 1; FLength 2]].
Proof. repeat constructor; by_computing. Qed.

(* ------------------------------------------------------------------ *)
(* Full property: different schemas have different texts,
     forall L s t, w_schema s = w_schema t -> s = t.
   It holds for the writable ones. *)

Theorem C85_injective_partial : forall (L : lib) (s t : schema),
  writable s -> writable t -> w_schema s = w_schema t -> s = t.
Proof.
  intros L s t Hs Ht E. apply schema_iff in Hs. apply schema_iff in Ht. rewrite E in Hs. congruence.
Qed.
Print Assumptions C85_injective_partial.

Theorem C85_injective_refuted : exists s t : schema, s <> t /\ w_schema s = w_schema t.
Proof.
  exists (with_value (VObj (ObjLit (LitNum (NumOther KLong "1"))))),
         (with_value (VObj (ObjLit (LitData "1" long_type)))).
  split; [discriminate|by_computing].
Qed.
Print Assumptions C85_injective_refuted.

(* ------------------------------------------------------------------ *)
(* Full property: what has been read is read back,
     forall L j s, r_schema j = Ok s -> r_schema (w_schema s) = Ok s.
   It holds unless an IRI that is a label contains `_:`. *)

Theorem C85_stable_partial : forall (L : lib), sound_lib -> forall j s,
  r_schema j = Ok s -> clean (schema_labels s) -> r_schema (w_schema s) = Ok s.
Proof. intros L Hl j s H Hc. apply schema_iff. exact (schema_got Hl j s H Hc). Qed.
Print Assumptions C85_stable_partial.

(* Facets in another order, a literal range whose exclusion is an IRI as a text,
   and members in another order. *)
Definition foreign : json :=
  JObj [("type", JStr "Schema"); ("@context", JStr "http://www.w3.org/ns/shex.jsonld");
        ("shapes", JArr [JObj [("type", JStr "ShapeDecl"); ("id", JStr "<http://e/S>");
           ("shapeExpr", JObj [("maxlength", JInt 3); ("type", JStr "NodeConstraint");
              ("values", JArr [JObj [("stem", JStr "a"); ("type", JStr "LiteralStemRange");
                                     ("exclusions", JArr [JStr "http://e/"])]]);
              ("length", JInt 2)])]])].

Definition foreign_read : schema := {|
  s_context := "http://www.w3.org/ns/shex.jsonld"; s_type := "Schema";
  s_imports := None; s_start := None; s_acts := None;
  s_shapes := Some [{| d_type := "ShapeDecl"; d_id := LIri (Iri "http://e/S"); d_abstract := false;
                       d_expr := SNode (constraint (Some [FLength 2; FMaxLength 3])
                                   (Some [VLitRange (Some "a") (Some [Whole "http://e/"])])) |}];
  s_prefixes := None; s_base := None; s_source := "" |}.

Example C85_stable_met :
  sound_lib /\ r_schema foreign = Ok foreign_read /\ clean (schema_labels foreign_read).
Proof.
  split; [exact demo_sound|]. split; [by_computing|].
  intros s [H|[]]. injection H as <-. apply blank_none. reflexivity.
Qed.

Theorem C85_stable_refuted : exists j s,
  r_schema j = Ok s /\ r_schema (w_schema s) <> Ok s.
Proof.
  exists (JObj [("@context", JStr "http://www.w3.org/ns/shex.jsonld"); ("type", JStr "Schema");
                ("start", JStr "<http://e/a_:b>")]),
         (with_start (SRef (LIri (Iri "http://e/a_:b")))).
  split; [by_computing|]. rewrite C85_label_changed. discriminate.
Qed.
Print Assumptions C85_stable_refuted.

(* ------------------------------------------------------------------ *)
(* Full property: a node constraint comes back with its facets.  If there is at
   most one of each kind, the same facets come back in a fixed order. *)

Theorem C85_facets_partial : forall (L : lib) (n : nodec) (fs : list facet),
  n_facets n = Some fs ->
  NoDup (map rank fs) -> Forall ok_facet fs ->
  ok_opt ok_name (n_datatype n) -> ok_list ok_value (n_values n) ->
  exists gs, Permutation fs gs /\ StronglySorted before gs /\
    r_nodec (w_nodec n) =
    Ok {| n_kind := n_kind n; n_datatype := n_datatype n; n_values := n_values n;
          n_facets := if is_nil gs then None else Some gs |}.
Proof.
  intros L n fs En Hn Hok Hd Hv. destruct (facets_read fs Hn Hok) as (gs & E & Hp & Hs).
  exists gs. split; [exact Hp|]. split; [exact Hs|]. rewrite nodec_read, En.
  apply (opt_iff r_iri w_iri ok_name _ name_iff) in Hd. rewrite Hd. cbn [rbind].
  apply (opt_iff (r_list r_value) (w_list w_value) (Forall ok_value)) in Hv;
    [|intros l; apply list_iff; apply value_iff].
  rewrite Hv. cbn [rbind w_facets]. rewrite E. reflexivity.
Qed.
Print Assumptions C85_facets_partial.

Example C85_facets_met :
  let fs := [FMaxLength 3; FPattern "a" None; FMinIn 1%Z] in
  NoDup (map rank fs) /\ Forall ok_facet fs.
Proof.
  split; [|repeat constructor].
  repeat constructor; cbn; intuition discriminate.
Qed.

(* Two facets of the same kind are refused. *)
Theorem C85_facets_refuted : exists n : nodec, r_nodec (w_nodec n) = Err.
Proof. exists (constraint (Some [FLength 1; FLength 2]) None). by_computing. Qed.
Print Assumptions C85_facets_refuted.

(* ------------------------------------------------------------------ *)
(* Full property: reading a JSON value never panics.  It panics only if there is
   a range of literals without exclusions. *)

Theorem C85_panic_partial : forall (L : lib), (forall j, read_fnum j <> Panic) ->
  forall j, r_schema j = Panic -> bare_range j.
Proof. intros L Hf j. now apply schema_panic. Qed.
Print Assumptions C85_panic_partial.

Definition bare : json :=
  JObj [("@context", JStr "http://www.w3.org/ns/shex.jsonld"); ("type", JStr "Schema");
        ("start", JObj [("type", JStr "NodeConstraint");
           ("values", JArr [JObj [("type", JStr "LiteralStemRange"); ("stem", JStr "a")]])])].

Theorem C85_panic_refuted : exists j, r_schema j = Panic.
Proof. exists bare. by_computing. Qed.
Print Assumptions C85_panic_refuted.

Example C85_panic_met : (forall j : json, read_fnum j <> Panic) /\ r_schema bare = Panic.
Proof. split; [intros []; discriminate|by_computing]. Qed.

(* Blank nodes as labels are written with their mark, of shapes and of triple expressions. *)
Example C85_blank_written :
  w_label (LBNode "b") = JStr "_:b" /\ w_tlabel (TLBNode "b") = JStr "_:b".
Proof. split; reflexivity. Qed.

(* An annotation need not say that it is one, but must not say that it is something else. *)
Example C85_annotation_type :
  let ann t := JObj (t ++ [("predicate", JStr "http://e/p"); ("object", JStr "http://e/o")])%list in
  r_ann (ann []) = Ok {| an_pred := Iri "http://e/p"; an_obj := ObjIri (Iri "http://e/o") |} /\
  r_ann (ann [("type", JStr "Annotation")]) = r_ann (ann []) /\
  r_ann (ann [("type", JStr "SemAct")]) = Err.
Proof. cbv zeta. split; [by_computing|]. split; by_computing. Qed.

(* Of two equal prefixes the last one counts, in the place of the first. *)
Example C85_prefix_twice :
  r_prefixes (JObj [("a", JStr "http://e/1"); ("b", JStr "http://e/2"); ("a", JStr "http://e/3")]) =
  Ok [("a", "http://e/3"); ("b", "http://e/2")].
Proof. by_computing. Qed.
