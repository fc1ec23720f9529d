(** C79: tables of application profiles are read as they are written. *)
From Coq Require Import String List Arith Bool Lia FinFun DecimalNat.
Import ListNotations.
From Verif Require Import CompModel TapModel TapSpec TapLemmas TapFinal TapGen.

Lemma fine_rows hr rows : (exists i, heads hr "SHAPEID" i) -> complete hr rows -> tidy hr rows -> Forall (fine hr) rows.
Proof.
  intros [i H] C T. unfold complete, tidy in *. rewrite Forall_forall in *. intros r I. specialize (C r I). specialize (T r I).
  split; [exact T|]. split; [|exact C].
  destruct (nth_error r i) as [c|] eqn:E; [|exfalso; apply nth_error_None in E; apply heads_lt in H; lia].
  exists (trim c), c. split; [exists i; split; assumption|apply stripped_trim].
Qed.

(** The full statement has neither the hypothesis that rows are complete nor that they are tidy. *)
Theorem C79_read_partial :
  forall d hr rows shapes,
    (exists i, heads hr "SHAPEID" i) -> complete hr rows -> tidy hr rows ->
    (read_tap d [] None (hr :: rows) = Ok shapes <-> described hr d rows shapes).
Proof.
  intros d hr rows shapes SH C T. cbn [read_tap].
  exact (read_shapes_iff hr d (S (length rows)) (mkRstate None rows (mkTapshape None None [] []) []) shapes
           (Nat.lt_succ_diag_r _) (fine_rows hr rows SH C T) (fun _ => eq_refl)).
Qed.
Print Assumptions C79_read_partial.

(** Reading ends, with shapes or an error, for all tables and all placeholders. *)
Theorem C79_ends :
  forall d ph em table, read_tap d ph em table <> OutOfFuel.
Proof.
  intros d ph em [|hr rows]; [discriminate|]. cbn [read_tap].
  apply read_shapes_ends. cbn. lia.
Qed.
Print Assumptions C79_ends.

(** The identifiers generated for one placeholder are all different. *)
Theorem C79_generated :
  forall d ph em hr rows shapes c stem,
    (exists i, heads hr "SHAPEID" i) -> complete hr rows ->
    c <> [] -> assoc c ph = Some stem -> Forall (fun r => entry hr "PROPERTYID" r (Some c)) rows ->
    read_tap d ph em (hr :: rows) = Ok shapes ->
    NoDup (map s_property (flat_map t_statements shapes)) /\
    Forall (fun p => exists x, p = stem ++ x /\ x <> []) (map s_property (flat_map t_statements shapes)).
Proof.
  intros d ph em hr rows shapes c stem [i Hi] C N A H E. cbn [read_tap] in E.
  assert (HI : Forall (has_id hr) rows).
  { unfold complete in C. rewrite Forall_forall in *. intros r I. specialize (C r I).
    destruct (nth_error r i) as [x|] eqn:Ex; [|exfalso; apply nth_error_None in Ex; apply heads_lt in Hi; lia].
    exists (trim x), x. split; [exists i; split; assumption|apply stripped_trim]. }
  destruct (read_shapes_gen d ph em hr c stem N A _ (mkRstate None rows (mkTapshape None None [] []) []) shapes H HI E) as (n & P).
  assert (Q : map s_property (flat_map t_statements shapes) = flat_map props shapes).
  { clear. induction shapes as [|s shapes IH]; [reflexivity|]. cbn. rewrite map_app, IH. reflexivity. }
  rewrite Q, P. split.
  - apply FinFun.Injective_map_NoDup; [|apply seq_NoDup]. intros j k G. exact (gen_inj stem j k G).
  - apply Forall_forall. intros p I. apply in_map_iff in I as (k & <- & _). exists (uint_str (Nat.to_uint k)). split; [reflexivity|].
    assert (Z : Nat.to_uint k <> Decimal.Nil) by (intro Z; pose proof (Unsigned.of_to k) as O; rewrite Z in O; cbn in O; subst k; discriminate Z). destruct (Nat.to_uint k); [congruence|..]; discriminate.
Qed.
Print Assumptions C79_generated.

(** *** a table *)
Definition words_of (l : list string) : row := map lit l.
Definition met_header : row := words_of ["shapeID"; "ShapeLabel "; "propertyID"; "mandatory"; "Repeatable"; "valueDataType"; "valueConstraint"; "valueShape"]%string.
Definition met_rows : list row := map words_of
  [ [""; ""; ""; " "; ""; ""; ""; ""];
    ["Book"; "A book"; "dc:title"; "TRUE"; "no"; "xsd:string rdf:langString"; ""; ""];
    [""; ""; "dc:creator"; "0"; "1"; ""; ""; " Author "];
    ["Book"; ""; "dc:type"; ""; ""; ""; "ex:a|ex:b|"; ""];
    ["Author"; ""; "foaf:name"; "Yes"; ""; "xsd:string"; ""; ""] ]%string.
Definition met_shapes : list tapshape :=
  [ mkTapshape (Some (lit "Book")) (Some (lit "A book"))
      [ mkStatement (lit "dc:title") None (Some true) (Some false) None [lit "xsd:string"; lit "rdf:langString"] None None None;
        mkStatement (lit "dc:creator") None (Some false) (Some true) None [] (Some (lit "Author")) None None;
        mkStatement (lit "dc:type") None (Some false) (Some false) None [] None (Some (PickList [lit "ex:a"; lit "ex:b"])) None ] [];
    mkTapshape (Some (lit "Author")) (Some []) [ mkStatement (lit "foaf:name") None (Some true) (Some false) None [lit "xsd:string"] None None None ] [] ].
Lemma met_tidy : tidy met_header met_rows.
Proof.
  unfold tidy. assert (B : forall c, (is_nil (trim c) = false \/ c = []) -> blank c -> c = []).
  { intros c [H|H] B; [|exact H]. apply blank_iff in B. rewrite B in H. discriminate. }
  apply Forall_forall. intros r I. split.
  - intros c E. apply entry_iff in E. apply B. revert E. unfold met_rows in I. cbn [map] in I. do 5 (destruct I as [<-|I]; [vm_compute; intros [= <-]; auto|]). destruct I.
  - intros c E Bc. apply entry_iff in E. split.
    + apply B; [|exact Bc]. revert E. unfold met_rows in I. cbn [map] in I. do 5 (destruct I as [<-|I]; [vm_compute; intros [= <-]; auto|]). destruct I.
    + intros t Et. apply entry_iff in Et. assert (t = None) as -> by (rewrite <- Et; reflexivity). exact (fun H => H).
Qed.
Example C79_met :
  (exists i, heads met_header "SHAPEID" i) /\ complete met_header met_rows /\ tidy met_header met_rows /\
  read_tap 124 [] None (met_header :: met_rows) = Ok met_shapes.
Proof.
  split; [exists 0; apply column_iff; reflexivity|]. split; [repeat constructor|]. split; [exact met_tidy|]. vm_compute. reflexivity.
Qed.
Example C79_generated_met :
  exists shapes, read_tap 124 [(lit "x", lit "p")] None (map words_of [["shapeID"; "propertyID"]; ["A"; "x"]; [""; "x"]; ["B"; "x"]]%string) = Ok shapes /\
    map s_property (flat_map t_statements shapes) = [lit "p0"; lit "p1"; lit "p2"].
Proof. eexists. split; vm_compute; reflexivity. Qed.

(** A shape that is named again after another one is read as two shapes with one identifier. *)
Theorem C79_repeated_refuted :
  exists hr rows shapes, complete hr rows /\ tidy hr rows /\ read_tap 124 [] None (hr :: rows) = Ok shapes /\ ~ NoDup (map t_id shapes).
Proof.
  exists (words_of ["shapeID"; "propertyID"]%string), (map words_of [["A"; "p"]; ["B"; "q"]; ["A"; "r"]]%string).
  eexists. split; [repeat constructor|]. split; [|split; [vm_compute; reflexivity|]].
  - apply Forall_forall. intros r I. split.
    + intros c E Bc. apply entry_iff in E. apply blank_iff in Bc. exfalso. revert E Bc. cbn [map] in I.
      do 3 (destruct I as [<-|I]; [vm_compute; intros [= <-]; vm_compute; discriminate|]). destruct I.
    + intros c E. apply entry_iff in E. discriminate E.
  - intro H. inversion H as [|x l N _]; subst. apply N. cbn. right. left. reflexivity.
Qed.
Print Assumptions C79_repeated_refuted.

(** In a table whose rows may be short, a shape without a label has the label of the shape before it. *)
Theorem C79_short_row_refuted :
  exists hr ra rb sa sb, read_tap 124 [] None [hr; ra; rb] = Ok [sa; sb] /\ entry hr "SHAPELABEL" rb None /\ t_label sb = Some (lit "The label of A").
Proof.
  exists (words_of ["shapeID"; "propertyID"; "shapeLabel"]%string), (words_of ["A"; "p"; "The label of A"]%string), (words_of ["B"; "q"]%string).
  eexists. eexists. split; [vm_compute; reflexivity|]. split; [apply entry_iff|]; vm_compute; reflexivity.
Qed.
Print Assumptions C79_short_row_refuted.

(** A property cell of white space is a property with an empty identifier; an empty one is none. *)
Theorem C79_blank_property_refuted :
  exists hr r s st, complete hr [r] /\ read_tap 124 [] None [hr; r] = Ok [s] /\ entry hr "PROPERTYID" r (Some (lit " ")) /\ t_statements s = [st] /\ s_property st = [].
Proof.
  exists (words_of ["shapeID"; "propertyID"]%string), (words_of ["A"; " "]%string). eexists. eexists.
  split; [repeat constructor|]. split; [vm_compute; reflexivity|]. split; [apply entry_iff; vm_compute; reflexivity|]. split; reflexivity.
Qed.
Print Assumptions C79_blank_property_refuted.

(** A constraint cell of white space constrains the values to white space, and an empty pattern is a pattern. *)
Theorem C79_blank_constraint_refuted :
  exists hr r r' s st st', complete hr [r; r'] /\ read_tap 124 [] None [hr; r; r'] = Ok [s] /\ t_statements s = [st; st'] /\
    entry hr "VALUECONSTRAINT" r (Some (lit " ")) /\ s_constraint st = Some (PickList [lit " "]) /\
    entry hr "VALUECONSTRAINT" r' (Some []) /\ s_constraint st' = Some (Pattern []).
Proof.
  exists (words_of ["shapeID"; "propertyID"; "valueConstraint"; "valueConstraintType"]%string), (words_of ["A"; "p"; " "; ""]%string), (words_of [""; "q"; ""; "pattern"]%string).
  eexists. eexists. eexists. split; [repeat constructor|]. split; [vm_compute; reflexivity|]. split; [reflexivity|].
  split; [apply entry_iff; vm_compute; reflexivity|]. split; [reflexivity|]. split; [apply entry_iff; vm_compute; reflexivity|reflexivity].
Qed.
Print Assumptions C79_blank_constraint_refuted.

(** Identifiers generated for two placeholders may be the same, and a placeholder with a space is not replaced. *)
Theorem C79_placeholders_refuted :
  exists hr ra rb rc s x y z, x <> y /\ complete hr [ra; rb; rc] /\
    entry hr "PROPERTYID" ra (Some x) /\ entry hr "PROPERTYID" rb (Some y) /\ entry hr "PROPERTYID" rc (Some z) /\ stripped z x /\
    read_tap 124 [(x, lit "p"); (y, lit "p")] None [hr; ra; rb; rc] = Ok [s] /\ map s_property (t_statements s) = [lit "p0"; lit "p0"; x].
Proof.
  exists (words_of ["shapeID"; "propertyID"]%string), (words_of ["A"; "x"]%string), (words_of [""; "y"]%string), (words_of [""; " x"]%string).
  eexists. exists (lit "x"), (lit "y"), (lit " x"). split; [discriminate|]. split; [repeat constructor|].
  split; [apply entry_iff; vm_compute; reflexivity|]. split; [apply entry_iff; vm_compute; reflexivity|]. split; [apply entry_iff; vm_compute; reflexivity|].
  split; [apply stripped_iff; reflexivity|]. split; vm_compute; reflexivity.
Qed.
Print Assumptions C79_placeholders_refuted.
