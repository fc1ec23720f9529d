(** C82: schemas are printed in the compact syntax and read back.

    What one would like: whatever has been read can be printed, and what is
    printed is read as the same schema:

      forall n b i s, read n b i = Read s ->
        exists j, print s = Some j /\ apart BNothing j = true
          /\ forall n, length j + 2 <= n -> read n b j = Read s

    It does not hold.  It is proved for the schemas that are [printable]
    (PpSpec): those that use the part of the language the printer writes
    faithfully. *)
From Coq Require Import String List ZArith Bool Lia.
From Verif Require Import PsModel PsSpec PsLemmas PsFinal PpModel PpSpec PpCase PpLemmas PpFinal PpApart.
Import ListNotations.
Local Open Scope string_scope.
Local Open Scope list_scope.

(** A printable schema is printed without a panic, and the text is read as the
    schema. *)
Theorem C82_round_trip_partial qualify type_iri lit_prints print_values expand rebase deref_values deref_lit s n b :
  printable qualify type_iri lit_prints print_values expand rebase deref_values deref_lit s ->
  (sc_base s = None -> b = None) ->
  exists i, print qualify type_iri lit_prints print_values s = Some i
    /\ (length i + 2 <= n -> exists s',
          read expand rebase type_iri deref_values deref_lit n b i = Read s'
          /\ same_schema type_iri expand (sc_prefixes s) s s').
Proof.
  destruct s as [pm base im ac st sh]. intros F Hb.
  exact (read_back qualify type_iri lit_prints print_values expand rebase deref_values deref_lit pm base im ac st sh F n b Hb).
Qed.
Print Assumptions C82_round_trip_partial.

(** Without imports and start actions, it is the very same schema. *)
Theorem C82_identity_partial qualify type_iri lit_prints print_values expand rebase deref_values deref_lit s n b :
  printable qualify type_iri lit_prints print_values expand rebase deref_values deref_lit s ->
  (sc_base s = None -> b = None) -> sc_imports s = None -> sc_acts s = None ->
  exists i, print qualify type_iri lit_prints print_values s = Some i
    /\ (length i + 2 <= n -> read expand rebase type_iri deref_values deref_lit n b i = Read s).
Proof.
  intros F Hb Hi Ha.
  destruct (C82_round_trip_partial qualify type_iri lit_prints print_values expand rebase deref_values deref_lit s n b F Hb)
    as (i & E & H). exists i. split; [exact E|]. intros Hn. destruct (H Hn) as (s' & E' & E1 & E2 & E3 & E4 & E5 & E6).
  rewrite E'. f_equal. rewrite Hi in E5. rewrite Ha in E6. destruct s, s'. cbn in *. subst.
  destruct sc_imports0; [destruct E5|]. destruct sc_acts0; [destruct E6|]. reflexivity.
Qed.
Print Assumptions C82_identity_partial.

(** Two printable schemas with one text say the same. *)
Theorem C82_injective_partial qualify type_iri lit_prints print_values expand rebase deref_values deref_lit s s' :
  printable qualify type_iri lit_prints print_values expand rebase deref_values deref_lit s ->
  printable qualify type_iri lit_prints print_values expand rebase deref_values deref_lit s' ->
  print qualify type_iri lit_prints print_values s = print qualify type_iri lit_prints print_values s' ->
  sc_prefixes s = sc_prefixes s' /\ sc_base s = sc_base s' /\ sc_start s = sc_start s' /\ sc_shapes s = sc_shapes s'.
Proof.
  intros F F' E.
  destruct (C82_round_trip_partial _ _ _ _ _ _ _ _ s 0 None F (fun _ => eq_refl)) as (i & Ei & _).
  destruct (C82_round_trip_partial _ _ _ _ _ _ _ _ s (length i + 2) None F (fun _ => eq_refl)) as (j & Ej & H).
  destruct (C82_round_trip_partial _ _ _ _ _ _ _ _ s' (length i + 2) None F' (fun _ => eq_refl)) as (k & Ek & H').
  assert (j = i) by congruence. assert (k = i) by congruence. subst j k.
  destruct (H (le_n _)) as (t & E1 & A1 & A2 & A3 & A4 & _). destruct (H' (le_n _)) as (t' & E2 & B1 & B2 & B3 & B4 & _).
  assert (t' = t) by congruence. subst t'. repeat split; congruence.
Qed.
Print Assumptions C82_injective_partial.

(** The keywords of a sentence (C81) may be spelled in small and capital
    letters. *)
Theorem C82_spelling_partial d i ts n :
  doc_syntax d -> Forall plain_stmt d -> clear_names (doc_toks d) ->
  Forall2 spelled (doc_toks d) ts -> lays_out ts i -> length i + 2 <= n ->
  parse n i = Statements (List.map stmt_tree d).
Proof.
  intros Hd Hp Hc Hs Hi Hn. unfold lays_out in Hi. rewrite <- Hi in Hs.
  destruct (respell i (doc_toks d) Hs) as (j & Ej & Rj).
  assert (L : length j = length i) by (clear -Rj; unfold R in Rj; induction Rj; cbn; congruence).
  rewrite <- (parse_R n j i Rj). apply documents_read; try assumption. lia.
Qed.
Print Assumptions C82_spelling_partial.

(** The tokens that are printed are apart, so that they are the tokens of the
    characters. *)
Theorem C82_apart_partial qualify type_iri lit_prints print_values expand rebase deref_values deref_lit s i :
  printable qualify type_iri lit_prints print_values expand rebase deref_values deref_lit s -> roomy_schema s ->
  print qualify type_iri lit_prints print_values s = Some i -> apart BNothing i = true.
Proof. intros F R. exact (schema_apart _ _ _ _ _ _ _ _ s F R i). Qed.
Print Assumptions C82_apart_partial.

(** ** A schema

    The namespace of [ex] is the number 100; its names are the numbers from 100
    to 149; rdf:type is 7. *)
Definition qualify1 (i : nat) : option (string * option nat) :=
  if (Nat.leb 100 i && Nat.ltb i 150)%bool then Some ("ex", Some (i - 100)) else None.
Definition expand1 (ns : nat) (l : option nat) : nat := match l with Some n => ns + n | None => ns end.
Definition rebase1 (b i : nat) : option nat := Some i.
Definition same1 (b : option nat) (pm : option prefixes) (v : nat) : option nat := Some v.
Definition pr : schema -> option text := print qualify1 7 (fun _ => true) Some.
Definition rd (n : nat) (i : text) : reading := read expand1 rebase1 7 same1 same1 n None i.
Definition fine1 : schema -> Prop := printable qualify1 7 (fun _ => true) Some expand1 rebase1 same1 same1.

(** prefix ex: <100>  base <500>  import ex:1  start = @ex:A
    ex:A CLOSED EXTRA a { ex:p [...] ? ; !^ ex:q IRI AND NOT @ex:B %ex:act{ %}; ex:r . } // ex:p "..."
    ex:B EXTENDS @ex:A { }     ex:C LITERAL Length 3 OR xsd:int     ex:D EXTERNAL *)
Definition i1 (n : nat) : iriref := RIri (100 + n).
Definition l1 (n : nat) : label := LIri (i1 n).
Definition a_schema : schema :=
  mkSchema (Some [("ex", 100)]) (Some 500) (Some [i1 1]) (Some [(i1 9, Some 3)]) (Some (SRef (l1 0)))
    (Some
      [ (false, l1 0, SShape (Some true) (Some [RIri 7]) (Some (EEach None
           [ ETc None None None (i1 2) (Some (SNode (mkNodec None None (Some 4) None))) (Some 0%Z) (Some 1%Z) None None;
             ETc None (Some true) (Some true) (i1 3)
               (Some (SAnd [SNode (mkNodec (Some KIri) None None None); SNot (SRef (l1 1))])) (Some 1%Z) (Some (-1)%Z)
               (Some [(i1 9, Some 5)]) None;
             ETc None None None (i1 4) None None None None (Some [(i1 2, VIri (i1 3))]) ] None None None None))
           None (Some [(i1 2, VLit 6)]) None);
        (false, l1 1, SShape None None None None None (Some [l1 0]));
        (false, l1 2, SOr [SNode (mkNodec (Some KLiteral) None None (Some [FLen LLength 3]));
                           SNode (mkNodec None (Some (RIri 8)) None None)]);
        (false, l1 3, SExternal) ]).

Lemma clear_ex : clear "ex".
Proof. intros k Hk. cbn in Hk. repeat (destruct Hk as [<-|Hk]; [reflexivity|]). contradiction. Qed.
Lemma faithful1 i b pm : In ("ex", 100) pm -> faithful qualify1 7 expand1 rebase1 b (Some pm) i.
Proof.
  intros H. split; [|destruct b; reflexivity]. unfold qualify1.
  destruct (Nat.leb_spec 100 i); [|exact Logic.I]. destruct (Nat.ltb_spec i 150); [|exact Logic.I]. cbn.
  split; [exact clear_ex|]. exists 100. split; [exact H|]. cbn. lia.
Qed.
Example C82_met : fine1 a_schema /\ roomy_schema a_schema
  /\ exists i, pr a_schema = Some i /\ apart BNothing i = true
       /\ rd 200 i = Read (mkSchema (sc_prefixes a_schema) (sc_base a_schema) (Some [RName "ex" (Some 1)])
                             (Some [(RName "ex" (Some 9), Some 3)]) (sc_start a_schema) (sc_shapes a_schema)).
Proof.
  assert (H : In ("ex", 100) [("ex", 100)]) by (left; reflexivity).
  split; [|split].
  - assert (RS : forall i, resolved qualify1 7 expand1 rebase1 (Some 500) (Some [("ex", 100)]) (RIri i)).
    { intros i. exists i. split; [reflexivity|apply faithful1, H]. }
    assert (FF : forall i, faithful qualify1 7 expand1 rebase1 (Some 500) (Some [("ex", 100)]) i).
    { intros i. apply faithful1, H. }
    unfold fine1, printable, schema_fine. cbn -[qualify1 clear resolved faithful].
    repeat first
      [ exact clear_ex | apply RS | apply FF | exact Logic.I | discriminate | reflexivity | tauto
      | match goal with
        | |- _ = SExternal \/ _ => right
        | |- _ /\ _ => split
        | |- Forall _ _ => constructor
        | |- NoDup _ => constructor
        | |- flag_fine _ => unfold flag_fine
        | |- card_fine _ _ => unfold card_fine
        | |- annot_fine _ _ _ _ _ _ _ _ _ => unfold annot_fine
        | |- act_fine _ _ _ _ _ _ _ => unfold act_fine
        | |- one_string _ => unfold one_string
        | |- usize _ => unfold usize
        | |- exists _, _ => eexists
        | |- _ -> _ => intros ?
        end
      | progress cbn -[qualify1 clear resolved faithful] | lia ].
  - split; [exact Logic.I|]. cbn. repeat (constructor; [cbn; repeat split; auto; right; left; discriminate|]). constructor.
  - eexists. split; [vm_compute; reflexivity|]. split; vm_compute; reflexivity.
Qed.

(** ** Schemas that are read but not read back

    Each theorem gives a text, the schema [s] read from it, and what is printed
    for [s].  The shapes have the labels <0>, <1>, ... *)
Definition spaced (ts : list tok) : text := List.map (fun t => (true, t)) ts.
Definition sh0 (e : cse) : text := spaced (doc_toks [CShape false (LIri (RIri 0)) (Some e)]).
Definition tc0 (v : cse) (c : option ccard) : cte := CTc None SPlain (RIri 1) v c [] [].
Definition only (t : cte) : cse := CSub (CDef [] (Some (CGroup [t] false)) [] []) None.
Definition ref0 (n : nat) : cse := CSub (CRf (LIri (RIri n))) None.
(** What becomes of a text: it is read, printed, and the print is read. *)
Inductive fate := Panicked | Unreadable | Other (s s' : schema).
Definition is_fate (i : text) (f : fate) : Prop :=
  match f with
  | Panicked => exists s, rd 100 i = Read s /\ pr s = None
  | Unreadable => exists s j, rd 100 i = Read s /\ pr s = Some j /\ rd 100 j = ReadError
  | Other s s' => exists j, rd 100 i = Read s /\ pr s = Some j /\ rd 100 j = Read s' /\ s <> s'
  end.
Definition just (e : se) : schema := mkSchema None None None None None (Some [(false, LIri (RIri 0), e)]).
Definition rf (n : nat) : se := SRef (LIri (RIri n)).
Definition shp (t : te) : se := SShape None None (Some t) None None None.
Definition con (mn mx : option Z) : te := ETc None None None (RIri 1) None mn mx None None.
Ltac panicked := eexists; split; [vm_compute; reflexivity|vm_compute; reflexivity].
Ltac unreadable := eexists; eexists; split; [vm_compute; reflexivity|split; [vm_compute; reflexivity|vm_compute; reflexivity]].
Ltac other := eexists; split; [vm_compute; reflexivity|split; [vm_compute; reflexivity|split; [vm_compute; reflexivity|discriminate]]].

(** [<0> { <1> . {2,3} }] is printed as [<0> { <1> . { 2,3 } }], an error when
    read: no white space may stand inside the braces.  Likewise [{2}]; and
    [{2,}] is printed as [{ 2,-1 }]. *)
Theorem C82_range_refuted :
  is_fate (sh0 (only (tc0 CDot (Some (CRange 2 (BMax 3)))))) Unreadable
  /\ is_fate (sh0 (only (tc0 CDot (Some (CRange 2 BExact))))) Unreadable
  /\ is_fate (sh0 (only (tc0 CDot (Some (CRange 2 BOpen))))) Unreadable.
Proof. split; [unreadable|split; unreadable]. Qed.
Print Assumptions C82_range_refuted.

(** [(@<1> OR @<2>) AND @<3>] is printed without the parentheses and read as
    [@<1> OR (@<2> AND @<3>)]; [NOT (@<1> AND @<2>)] is read as
    [(NOT @<1>) AND @<2>]. *)
Theorem C82_parentheses_refuted :
  is_fate (sh0 (CAnd [CPar (COr [ref0 1; ref0 2]); ref0 3]))
    (Other (just (SAnd [SOr [rf 1; rf 2]; rf 3])) (just (SOr [rf 1; SAnd [rf 2; rf 3]])))
  /\ is_fate (sh0 (CNot (CPar (CAnd [ref0 1; ref0 2]))))
    (Other (just (SNot (SAnd [rf 1; rf 2]))) (just (SAnd [SNot (rf 1); rf 2]))).
Proof. split; other. Qed.
Print Assumptions C82_parentheses_refuted.

(** [{ ( <1> . ; <1> . ) + }]: the cardinality of a group is not printed. *)
Theorem C82_group_refuted :
  is_fate (sh0 (only (CBr None (CGroup [tc0 CDot None; tc0 CDot None] false) (Some CPlus) [] [])))
    (Other (just (shp (EEach None [con None None; con None None] (Some 1%Z) (Some (-1)%Z) None None)))
           (just (shp (EEach None [con None None; con None None] None None None None)))).
Proof. other. Qed.
Print Assumptions C82_group_refuted.

(** [{ $<5> <1> . }]: labels of triple expressions are not printed. *)
Theorem C82_label_refuted :
  is_fate (sh0 (only (CTc (Some (LIri (RIri 5))) SPlain (RIri 1) CDot None [] [])))
    (Other (just (shp (ETc (Some (LIri (RIri 5))) None None (RIri 1) None None None None None)))
           (just (shp (con None None)))).
Proof. other. Qed.
Print Assumptions C82_label_refuted.

(** [{ <1> . | <2> . }] and [{ &<5> ; }] are panics. *)
Theorem C82_choice_refuted :
  is_fate (sh0 (CSub (CDef [] (Some (COne [tc0 CDot None; tc0 CDot None])) [] []) None)) Panicked
  /\ is_fate (sh0 (CSub (CDef [] (Some (CGroup [tc0 CDot None; CInc (LIri (RIri 5))] false)) [] []) None)) Panicked.
Proof. split; panicked. Qed.
Print Assumptions C82_choice_refuted.

(** [ABSTRACT <0> { }] becomes [<0> { }]; the actions of a shape are dropped. *)
Theorem C82_abstract_refuted :
  is_fate (spaced (doc_toks [CShape true (LIri (RIri 0)) (Some (CSub (CDef [] None [] []) None))]))
    (Other (mkSchema None None None None None (Some [(true, LIri (RIri 0), SShape None None None None None None)]))
           (just (SShape None None None None None None)))
  /\ is_fate (sh0 (CSub (CDef [] None [] [(RIri 5, None)]) None))
       (Other (just (SShape None None None (Some [(RIri 5, None)]) None None))
              (just (SShape None None None None None None))).
Proof. split; other. Qed.
Print Assumptions C82_abstract_refuted.

(** [{ <1> . // <2> <3> %<4>% }] is printed with the action first; that is an
    error. *)
Theorem C82_annotations_refuted :
  is_fate (sh0 (only (CTc None SPlain (RIri 1) CDot None [(RIri 2, VIri (RIri 3))] [(RIri 4, None)]))) Unreadable.
Proof. unreadable. Qed.
Print Assumptions C82_annotations_refuted.

(** [LITERAL TOTALDIGITS 2]: the names of numeric facets are printed in mixed
    case, and are read in capitals only. *)
Theorem C82_facet_refuted :
  is_fate (sh0 (CLit (CKind KLiteral [FDigits DTotal 2]))) Unreadable
  /\ is_fate (sh0 (CLit (CNumerics [FRange RMinInc (NInt 2)]))) Unreadable.
Proof. split; unreadable. Qed.
Print Assumptions C82_facet_refuted.

(** [EXTENDS @<1> EXTENDS @<2> { }] is printed with one EXTENDS, an error. *)
Theorem C82_extends_refuted :
  is_fate (sh0 (CSub (CDef [CExtends false (LIri (RIri 1)); CExtends false (LIri (RIri 2))] None [] []) None)) Unreadable.
Proof. unreadable. Qed.
Print Assumptions C82_extends_refuted.

(** [EXTRA ex:p EXTENDS @<2> { }]: the tokens [ex:p] and [EXTENDS] are printed
    without anything between them. *)
Theorem C82_fused_refuted : exists i s j,
  rd 100 i = Read s /\ pr s = Some j /\ fine1 s /\ apart BNothing j = false.
Proof.
  exists (spaced (doc_toks [CPrefix "ex" 100; CShape false (LIri (RIri 0))
           (Some (CSub (CDef [CExtra [RName "ex" (Some 1)]; CExtends false (LIri (RIri 2))] None [] []) None))])).
  eexists. eexists. split; [vm_compute; reflexivity|]. split; [vm_compute; reflexivity|]. split; [|vm_compute; reflexivity].
  assert (RS : forall i, resolved qualify1 7 expand1 rebase1 None (Some [("ex", 100)]) (RIri i)).
  { intros i. exists i. split; [reflexivity|apply faithful1; left; reflexivity]. }
  unfold fine1, printable, schema_fine. cbn -[qualify1 clear resolved faithful]. unfold flag_fine.
  repeat first [ exact clear_ex | apply RS | exact Logic.I | discriminate | reflexivity | tauto
    | match goal with
      | |- _ /\ _ => split
      | |- Forall _ _ => constructor
      | |- NoDup _ => constructor
      | |- _ = SExternal \/ _ => right
      | |- flag_fine _ => left
      | |- _ -> _ => intros ?
      end | progress cbn -[qualify1 clear resolved faithful] ].
Qed.
Print Assumptions C82_fused_refuted.

(** A schema that is not read from a text but given as a tree (ShExJ): at least
    one, without a greatest number (which defaults to one), becomes [+]. *)
Theorem C82_default_refuted : exists s j s',
  s = just (shp (con (Some 1%Z) None)) /\ pr s = Some j /\ rd 100 j = Read s'
  /\ s' = just (shp (con (Some 1%Z) (Some (-1)%Z))).
Proof. eexists; eexists; eexists. split; [reflexivity|]. split; [vm_compute; reflexivity|].
  split; [vm_compute; reflexivity|reflexivity]. Qed.
Print Assumptions C82_default_refuted.
