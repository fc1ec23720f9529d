(** C81: reading the compact syntax.

    What one would like: every sentence of the grammar, laid out in any way, is
    read as the tree it means, and nothing but sentences is read:

      forall d i n, doc_syntax d -> lays_out (doc_toks d) i -> length i + 2 <= n ->
        parse n i = Statements (map stmt_tree d)

      forall i n l, parse n i = Statements l -> exists d, doc_syntax d /\ lays_out (doc_toks d) i

    Neither holds.  The first is proved for the plain sentences in whose names
    no prefix begins with a keyword. *)
From Coq Require Import String List ZArith Bool Lia.
From Verif Require Import PsModel PsSpec PsLemmas PsFinal.
Import ListNotations.
Local Open Scope string_scope.
Local Open Scope list_scope.

Theorem C81_sentences_read_partial d i n :
  doc_syntax d -> Forall plain_stmt d -> clear_names (doc_toks d) ->
  lays_out (doc_toks d) i -> length i + 2 <= n ->
  parse n i = Statements (List.map stmt_tree d).
Proof. exact (documents_read d i n). Qed.
Print Assumptions C81_sentences_read_partial.

(** White space makes no difference. *)
Theorem C81_layout_partial d i j n m :
  doc_syntax d -> Forall plain_stmt d -> clear_names (doc_toks d) ->
  lays_out (doc_toks d) i -> List.map snd j = List.map snd i -> length i + 2 <= n -> length i + 2 <= m ->
  parse n i = parse m j.
Proof.
  intros Hd Hp Hc Hi Hj Hn Hm. rewrite (documents_read d i n) by assumption. symmetry.
  apply documents_read; try assumption; [unfold lays_out in *; congruence|].
  rewrite <- (map_length snd j), Hj, map_length. exact Hm.
Qed.
Print Assumptions C81_layout_partial.

(** A text has one meaning. *)
Theorem C81_unambiguous_partial d e :
  doc_syntax d -> Forall plain_stmt d -> doc_syntax e -> Forall plain_stmt e ->
  clear_names (doc_toks d) -> doc_toks d = doc_toks e -> List.map stmt_tree d = List.map stmt_tree e.
Proof.
  intros Hd Hpd He Hpe Hc E.
  set (i := List.map (fun t => (true, t)) (doc_toks d)).
  assert (Hi : lays_out (doc_toks d) i).
  { unfold lays_out, i. rewrite map_map, map_id. reflexivity. }
  pose proof (documents_read d i (length i + 2) Hd Hpd Hc Hi ltac:(lia)) as E1.
  rewrite E in Hc, Hi.
  pose proof (documents_read e i (length i + 2) He Hpe Hc Hi ltac:(lia)) as E2.
  rewrite E1 in E2. injection E2 as E2. exact E2.
Qed.
Print Assumptions C81_unambiguous_partial.

(** Expressions on their own, in front of anything that may follow them. *)
Theorem C81_expressions_read_partial n inl c a rest : length (se_toks c) + 2 <= n ->
  shape_syntax inl c -> plain inl c -> clear_names (se_toks c) -> lays_out (se_toks c) a ->
  starts (after_or inl) rest ->
  exists b, shape_expression n inl (setf false (a ++ rest)) = Ok (se_tree c) (setf b rest).
Proof. exact (proj1 (expressions_read n) inl c a rest). Qed.
Print Assumptions C81_expressions_read_partial.

(** ** A document

    PREFIX ex: <0>  IMPORT <1>  %ex:act{ ... %}  START = @ex:A AND NOT { }
    ABSTRACT ex:A CLOSED EXTRA a ex:p { $ex:t ex:p IRI /x/ {2,4} // ex:p ex:q ;
       ( ! ^ ex:q [ ... ] | a ( LITERAL LENGTH 3 TOTALDIGITS 2 OR . ) + ) ? %ex:act% ; & ex:t ; } // ex:p "..."
    ex:B EXTENDS @ex:A { }   ex:C EXTERNAL *)
Definition ex (n : nat) : iriref := RName "ex" (Some n).
Definition lab (n : nat) : label := LIri (ex n).
Definition a_document : list cstmt :=
  [ CPrefix "ex" 0; CImport (RIri 1); CActions [(ex 9, Some 0)];
    CStart (CAnd [CSub (CRf (lab 0)) None; CNot (CSub (CDef [] None [] []) None)]);
    CShape true (lab 0) (Some (CSub (CDef [CClosed; CExtra [RType; ex 1]]
      (Some (CGroup
        [ CTc (Some (lab 5)) SPlain (ex 1) (CNonLit (CKind KIri [FPattern 3]) None) (Some (CRange 2 (BMax 4)))
            [(ex 1, VIri (ex 2))] [];
          CBr None (COne
            [ CTc None SNegInv (ex 2) (CLit (CValues 7 [])) None [] [];
              CTc None SPlain RType
                (CPar (COr [CLit (CKind KLiteral [FLen LLength 3; FDigits DTotal 2]); CDot])) (Some CPlus) [] [] ])
            (Some COptional) [] [(ex 9, None)];
          CInc (lab 5) ] true))
      [(ex 1, VLit 4)] []) None));
    CShape false (lab 1) (Some (CSub (CDef [CExtends false (lab 0)] None [] []) None));
    CShape false (lab 2) None ].

Example C81_met :
  doc_syntax a_document /\ Forall plain_stmt a_document /\ clear_names (doc_toks a_document)
  /\ parse 100 (List.map (fun t => (false, t)) (doc_toks a_document)) = Statements (List.map stmt_tree a_document)
  /\ parse 100 (List.map (fun t => (true, t)) (doc_toks a_document)) = Statements (List.map stmt_tree a_document).
Proof.
  split; [|split; [|split; [|split; vm_compute; reflexivity]]].
  - split.
    + repeat constructor; cbn; try discriminate; try tauto; try lia;
        repeat (constructor || discriminate || intros [=]).
    + exists [CPrefix "ex" 0; CImport (RIri 1)]. eexists. split; [reflexivity|].
      split; [repeat constructor|]. repeat constructor; intros [].
  - repeat constructor; cbn; try tauto; try (unfold usize, i32; lia); try (intros []); try discriminate.
  - assert (H : clear "ex").
    { intros k Hk. cbn in Hk. repeat (destruct Hk as [<-|Hk]; [reflexivity|]). contradiction. }
    intros p l Hin. cbn in Hin.
    repeat match type of Hin with
    | _ \/ _ => destruct Hin as [Hin|Hin]; [try discriminate Hin; injection Hin as <- _; exact H|]
    end. contradiction.
Qed.

(** ** Sentences that are not read as they are meant *)

Definition spaced (ts : list tok) : text := List.map (fun t => (true, t)) ts.
Lemma spaced_lays ts : lays_out ts (spaced ts).
Proof. unfold lays_out, spaced. rewrite map_map, map_id. reflexivity. Qed.
Definition empty_shape : cse := CSub (CDef [] None [] []) None.
Ltac sentence := split; [repeat constructor; cbn; try discriminate; try tauto; try lia; try (intros [=])
                        |exists []; eexists; split; [reflexivity|]; split; [constructor|]; repeat constructor; intros []].

(** [<0> . org:P <1> iri:Q <2>], three shapes, is read as
    [<0> . OR g:P  <1> IRI  :Q <2>]: no error, but another schema. *)
Theorem C81_names_refuted : exists d i,
  doc_syntax d /\ Forall plain_stmt d /\ lays_out (doc_toks d) i
  /\ List.map stmt_tree d =
       [IShape false (LIri (RIri 0)) any;
        IShape false (LIri (RName "org" (Some 0))) (SNode (mkNodec None (Some (RIri 1)) None None));
        IShape false (LIri (RName "iri" (Some 1))) (SNode (mkNodec None (Some (RIri 2)) None None))]
  /\ parse 100 i = Statements
       [IShape false (LIri (RIri 0)) (SOr [any; SNode (mkNodec None (Some (RName "g" (Some 0))) None None)]);
        IShape false (LIri (RIri 1)) (SNode (mkNodec (Some KIri) None None None));
        IShape false (LIri (RName "" (Some 1))) (SNode (mkNodec None (Some (RIri 2)) None None))].
Proof.
  set (d := [CShape false (LIri (RIri 0)) (Some CDot);
             CShape false (LIri (RName "org" (Some 0))) (Some (CLit (CDatatype (RIri 1) [])));
             CShape false (LIri (RName "iri" (Some 1))) (Some (CLit (CDatatype (RIri 2) [])))]).
  exists d, (spaced (doc_toks d)).
  split; [sentence|]. split; [repeat constructor; cbn; tauto|].
  split; [apply spaced_lays|]. split; vm_compute; reflexivity.
Qed.
Print Assumptions C81_names_refuted.

(** [abstract:S { }] is read as [ABSTRACT :S { }]; [start:S { }] is an
    error. *)
Theorem C81_abstract_refuted : exists d i,
  doc_syntax d /\ Forall plain_stmt d /\ lays_out (doc_toks d) i
  /\ parse 100 i = Statements [IShape true (LIri (RName "" (Some 0))) (SShape None None None None None None)]
  /\ List.map stmt_tree d = [IShape false (LIri (RName "abstract" (Some 0))) (SShape None None None None None None)].
Proof.
  exists [CShape false (LIri (RName "abstract" (Some 0))) (Some empty_shape)], (spaced (doc_toks [CShape false (LIri (RName "abstract" (Some 0))) (Some empty_shape)])).
  split; [sentence|]. split; [repeat constructor; cbn; tauto|].
  split; [apply spaced_lays|]. split; vm_compute; reflexivity.
Qed.
Print Assumptions C81_abstract_refuted.
Theorem C81_start_refuted : exists d i,
  doc_syntax d /\ Forall plain_stmt d /\ lays_out (doc_toks d) i /\ parse 100 i = Error.
Proof.
  exists [CShape false (LIri (RName "start" (Some 0))) (Some empty_shape)], (spaced (doc_toks [CShape false (LIri (RName "start" (Some 0))) (Some empty_shape)])).
  split; [sentence|]. split; [repeat constructor; cbn; tauto|].
  split; [apply spaced_lays|vm_compute; reflexivity].
Qed.
Print Assumptions C81_start_refuted.

(** [<0> LITERAL MINLENGTH 3 MAXLENGTH 5]: the second facet of strings is not
    read when there is white space before it. *)
Theorem C81_facets_refuted : exists d i,
  doc_syntax d /\ clear_names (doc_toks d) /\ lays_out (doc_toks d) i /\ parse 100 i = Error.
Proof.
  set (d := [CShape false (LIri (RIri 0)) (Some (CLit (CKind KLiteral [FLen LMin 3; FLen LMax 5])))]).
  exists d, (spaced (doc_toks d)).
  split; [sentence|]. split; [intros p l H; cbn in H; intuition discriminate|].
  split; [apply spaced_lays|vm_compute; reflexivity].
Qed.
Print Assumptions C81_facets_refuted.

(** [<0> { <1> EXTENDS @<2> { } }] ends in a panic, and so does
    [<0> { (& <1>) }]. *)
Theorem C81_inline_extends_refuted : exists d i,
  doc_syntax d /\ clear_names (doc_toks d) /\ lays_out (doc_toks d) i /\ parse 100 i = Panics.
Proof.
  set (d := [CShape false (LIri (RIri 0)) (Some (CSub (CDef [] (Some
    (CTc None SPlain (RIri 1) (CSub (CDef [CExtends false (LIri (RIri 2))] None [] []) None) None [] [])) [] []) None))]).
  exists d, (spaced (doc_toks d)).
  split; [sentence|]. split; [intros p l H; cbn in H; intuition discriminate|].
  split; [apply spaced_lays|vm_compute; reflexivity].
Qed.
Print Assumptions C81_inline_extends_refuted.
Theorem C81_bracketed_inclusion_refuted : exists d i,
  doc_syntax d /\ clear_names (doc_toks d) /\ lays_out (doc_toks d) i /\ parse 100 i = Panics.
Proof.
  set (d := [CShape false (LIri (RIri 0)) (Some (CSub (CDef [] (Some
    (CBr None (CInc (LIri (RIri 1))) None [] [])) [] []) None))]).
  exists d, (spaced (doc_toks d)).
  split; [sentence|]. split; [intros p l H; cbn in H; intuition discriminate|].
  split; [apply spaced_lays|vm_compute; reflexivity].
Qed.
Print Assumptions C81_bracketed_inclusion_refuted.

(** [<0> { ( <1> . {2} )? }] is read as [<0> { <1> . ? }]: the cardinality in
    the brackets is lost. *)
Theorem C81_cardinality_refuted : exists d i l,
  doc_syntax d /\ clear_names (doc_toks d) /\ lays_out (doc_toks d) i /\ parse 100 i = Statements l
  /\ l <> List.map stmt_tree d
  /\ l = [IShape false (LIri (RIri 0)) (SShape None None
            (Some (ETc None None None (RIri 1) None (Some 0%Z) (Some 1%Z) None None)) None None None)].
Proof.
  set (d := [CShape false (LIri (RIri 0)) (Some (CSub (CDef [] (Some
    (CBr None (CTc None SPlain (RIri 1) CDot (Some (CRange 2 BExact)) [] []) (Some COptional) [] [])) [] []) None))]).
  exists d, (spaced (doc_toks d)). eexists.
  split; [sentence|]. split; [intros p l H; cbn in H; intuition discriminate|].
  split; [apply spaced_lays|]. split; [vm_compute; reflexivity|]. split; [discriminate|reflexivity].
Qed.
Print Assumptions C81_cardinality_refuted.
(** [<0> { ( $<2> <1> . ) }] is read without the label [<2>]. *)
Theorem C81_label_refuted : exists d i l,
  doc_syntax d /\ clear_names (doc_toks d) /\ lays_out (doc_toks d) i /\ parse 100 i = Statements l
  /\ l <> List.map stmt_tree d
  /\ l = [IShape false (LIri (RIri 0)) (SShape None None
            (Some (ETc None None None (RIri 1) None None None None None)) None None None)].
Proof.
  set (d := [CShape false (LIri (RIri 0)) (Some (CSub (CDef [] (Some
    (CBr None (CTc (Some (LIri (RIri 2))) SPlain (RIri 1) CDot None [] []) None [] [])) [] []) None))]).
  exists d, (spaced (doc_toks d)). eexists.
  split; [sentence|]. split; [intros p l H; cbn in H; intuition discriminate|].
  split; [apply spaced_lays|]. split; [vm_compute; reflexivity|]. split; [discriminate|reflexivity].
Qed.
Print Assumptions C81_label_refuted.

(** [<0> { <1> . {2147483648} }]: numbers are cut to 32 bits. *)
Theorem C81_numbers_refuted : exists d i,
  doc_syntax d /\ clear_names (doc_toks d) /\ lays_out (doc_toks d) i
  /\ parse 100 i = Statements [IShape false (LIri (RIri 0)) (SShape None None
       (Some (ETc None None None (RIri 1) None (Some (-2147483648)%Z) (Some (-2147483648)%Z) None None)) None None None)].
Proof.
  set (d := [CShape false (LIri (RIri 0)) (Some (CSub (CDef [] (Some
    (CTc None SPlain (RIri 1) CDot (Some (CRange 2147483648 BExact)) [] [])) [] []) None))]).
  exists d, (spaced (doc_toks d)).
  split; [sentence|]. split; [intros p l H; cbn in H; intuition discriminate|].
  split; [apply spaced_lays|vm_compute; reflexivity].
Qed.
Print Assumptions C81_numbers_refuted.

(** Keywords of the grammar are read in any case, but [closed] is not. *)
Definition spelled (t u : tok) : Prop :=
  t = u \/ exists w v, t = TWord w /\ u = TWord v /\ begins w v = true /\ begins v w = true.
Theorem C81_case_refuted : exists d i,
  doc_syntax d /\ Forall plain_stmt d /\ clear_names (doc_toks d)
  /\ Forall2 spelled (doc_toks d) (List.map snd i) /\ parse 100 i = Error.
Proof.
  exists [CShape false (LIri (RIri 0)) (Some (CSub (CDef [CClosed] None [] []) None))],
         (spaced [TIri 0; TWord "closed"; TP PLBrace; TP PRBrace]).
  split; [sentence|]. split; [repeat constructor; cbn; tauto|].
  split; [intros p l H; cbn in H; intuition discriminate|].
  split; [|vm_compute; reflexivity].
  cbn. do 4 (constructor; [first [left; reflexivity|right; exists "CLOSED", "closed"; repeat split]|]). constructor.
Qed.
Print Assumptions C81_case_refuted.

(** ** Texts that are read and are no sentences

    [<0> IRI AND] is read as [<0> IRI]. *)
Lemma last_app {A} (l m : list A) x : m <> [] -> last (l ++ m) x = last m x.
Proof.
  intros H. induction l as [|y l IH]; [reflexivity|]. cbn [app]. cbn [last].
  destruct (l ++ m) eqn:E; [apply app_eq_nil in E; destruct E; congruence|]. exact IH.
Qed.
Definition ends (ts : list tok) : Prop := ts <> [] /\ last ts (TP PDot) <> TWord "AND".
Lemma ends_app l m : ends m -> ends (l ++ m).
Proof.
  intros [H1 H2]. split; [destruct l; [exact H1|discriminate]|]. rewrite last_app by exact H1. exact H2.
Qed.
Lemma ends_cons t m : ends m -> ends (t :: m).
Proof. apply (ends_app [t]). Qed.
Lemma ends_flat {A} (f : A -> list tok) l : (forall x, In x l -> ends (f x)) -> l <> [] -> ends (flat_map f l).
Proof.
  induction l as [|x l IH]; intros H Hne; [congruence|]. cbn. destruct l as [|y l].
  - cbn. rewrite app_nil_r. apply H. left. reflexivity.
  - apply ends_app, IH; [|discriminate]. intros z Hz. apply H. right. exact Hz.
Qed.
Lemma ends_facet f : ends (facet_toks f).
Proof. destruct f as [[] z|x|[] [|]|[] z]; cbn; split; discriminate. Qed.
Lemma ends_node c : non_lit c \/ lit c -> ends (node_toks c).
Proof.
  assert (F : forall fs, fs <> [] -> ends (flat_map facet_toks fs))
    by (intros fs; apply ends_flat; intros f _; apply ends_facet).
  intros Hc. destruct c as [k [|f fs]|[|f fs]|d [|f fs]|v [|f fs]|[|f fs]]; cbn [node_toks];
    try (apply ends_cons, F; discriminate); try (apply F; discriminate).
  - destruct k; split; discriminate.
  - destruct Hc as [[H _]|[]]; congruence.
  - destruct d; split; discriminate.
  - split; discriminate.
  - destruct Hc as [[]|[H _]]; congruence.
Qed.
Lemma ends_act x : ends (act_toks x).
Proof. destruct x as [p [|]]; split; discriminate. Qed.
Lemma ends_sub s : ends (sr_toks s).
Proof.
  destruct s as [qs t an ac|l]; cbn [sr_toks]; [|split; discriminate].
  apply ends_app, ends_cons, ends_app. destruct ac as [|x ac].
  - cbn. rewrite app_nil_r. destruct an as [|y an]; [split; discriminate|]. apply ends_cons, ends_flat; [|discriminate].
    intros [p [[]|]] _; split; discriminate.
  - apply ends_cons, ends_app, ends_flat; [|discriminate]. intros y _. apply ends_act.
Qed.
Lemma ends_between t l : (forall x, In x l -> ends x) -> l <> [] -> ends (between t l).
Proof.
  induction l as [|x l IH]; intros H Hne; [congruence|]. destruct l as [|y l].
  - apply H. left. reflexivity.
  - change (ends (x ++ t :: between t (y :: l))). apply ends_app, ends_cons, IH; [|discriminate].
    intros z Hz. apply H. right. exact Hz.
Qed.
Fixpoint ends_se (inl : bool) (c : cse) {struct c} : shape_syntax inl c -> ends (se_toks c).
Proof.
  destruct c as [l|l|c|c s|c|s c|c|]; cbn [se_toks shape_syntax]; intros H.
  - destruct H as [Hl H]. apply ends_between; [|destruct l; [cbn in Hl; lia|discriminate]].
    clear Hl. induction l as [|c l IH]; [intros x []|]. destruct H as [[_ H1] H2].
    intros x [<-|Hx]; [exact (ends_se inl c H1)|exact (IH H2 x Hx)].
  - destruct H as [Hl H]. apply ends_between; [|destruct l; [cbn in Hl; lia|discriminate]].
    clear Hl. induction l as [|c l IH]; [intros x []|]. destruct H as [[_ H1] H2].
    intros x [<-|Hx]; [exact (ends_se inl c H1)|exact (IH H2 x Hx)].
  - apply ends_cons. exact (ends_se inl c (proj2 H)).
  - destruct s as [s|]; [apply ends_app, ends_sub|rewrite app_nil_r; apply ends_node; left; apply H].
  - apply ends_node. right. exact H.
  - destruct c as [c|]; [apply ends_app, ends_node; left; apply H|rewrite app_nil_r; apply ends_sub].
  - apply ends_cons, ends_app. split; discriminate.
  - split; discriminate.
Qed.
Lemma ends_stmt s : stmt_syntax s -> ends (stmt_toks s).
Proof.
  destruct s as [p i|i|r|l|c|ab l c]; cbn [stmt_toks stmt_syntax]; intros H.
  - split; discriminate.
  - split; discriminate.
  - destruct r; split; discriminate.
  - apply ends_flat; [intros x _; apply ends_act|apply H].
  - apply ends_cons, ends_cons. exact (ends_se true c H).
  - apply ends_app, ends_cons. destruct c as [c|]; [exact (ends_se false c (proj2 H))|split; discriminate].
Qed.

Theorem C81_dangling_refuted : exists i l, parse 100 i = Statements l
  /\ forall d, doc_syntax d -> ~ lays_out (doc_toks d) i.
Proof.
  exists (spaced [TIri 0; TWord "IRI"; TWord "AND"]). eexists. split; [vm_compute; reflexivity|].
  intros d [Hd _] Hi. unfold lays_out in Hi. cbn in Hi. destruct d as [|s d]; [discriminate|].
  assert (E : ends (doc_toks (s :: d))).
  { apply ends_flat; [|discriminate]. rewrite Forall_forall in Hd. intros x Hx. apply ends_stmt, Hd, Hx. }
  rewrite <- Hi in E. apply (proj2 E). reflexivity.
Qed.
Print Assumptions C81_dangling_refuted.
