(** C84: reading and writing query shape maps in the compact syntax.

    In full (https://shexspec.github.io/shape-map/#grammar): every text of the
    grammar is read as the map it means, with its names resolved,
      [official t -> exists m, parse nodes shapes t = Done m],
    nothing else is read, and what is written is read back,
      [pp_shapemap node_name shape_name show m = Some t -> parse nodes shapes t = Done m].
    Proved for the sentences of [sentence] (SmSpec), whose terminals are those the
    program reads (C83), and for maps of one pair; the differences are refuted below. *)
From Coq Require Import List NArith Bool Lia Arith String Ascii.
From Verif Require Import LexModel LexSpec LexCore LexLemmas LexNames LexPn LexLocal LexIri LexRest LexPrint.
From Verif Require Import SmModel SmSpec SmLemmas SmRead SmFull SmPrint.
Import ListNotations.
Local Open Scope N_scope.
Local Open Scope list_scope.

(** * Reading *)

(** A sentence is read as the map it means, if all of its names can be resolved;
    if not, it is refused. *)
Theorem C84_read_partial : forall nodes shapes t m, sentence True t m -> ~ trouble t ->
  (forall fn fs, (forall x s, nodes x = Some s -> fn x = s) -> (forall x s, shapes x = Some s -> fs x = s) ->
     all_known nodes shapes m -> parse nodes shapes t = Done (renamed fn fs m)) /\
  (~ all_known nodes shapes m -> parse nodes shapes t = Error).
Proof.
  intros nodes shapes t m H T. unfold parse. rewrite (statements_full _ _ H T). split.
  - intros fn fs Fn Fs K. rewrite (r_all_some nodes shapes fn fs m); [reflexivity|]. intros n s I. destruct (K n s I) as (K1 & K2).
    split; intros x Hx; [destruct (K1 x Hx) as (u & E); rewrite E, (Fn _ _ E)|destruct (K2 x Hx) as (u & E); rewrite E, (Fs _ _ E)]; reflexivity.
  - intros K. destruct (r_all nodes shapes m) as [m'|] eqn:E; [|reflexivity]. destruct (K (r_all_known nodes shapes (some nodes) (some shapes) m m' E)).
Qed.
Print Assumptions C84_read_partial.

(** What is read is a sentence, and all of its names are resolved. *)
Theorem C84_sound : forall nodes shapes t m', parse nodes shapes t = Done m' ->
  exists m fn fs, sentence False t m /\ all_known nodes shapes m /\
    (forall x s, nodes x = Some s -> fn x = s) /\ (forall x s, shapes x = Some s -> fs x = s) /\ m' = renamed fn fs m.
Proof.
  intros nodes shapes t m' H. unfold parse in H. destruct (statements t) as [m| |] eqn:E; try discriminate.
  destruct (r_all nodes shapes m) as [m2|] eqn:R; [|discriminate]. injection H as <-. pose proof (r_all_known nodes shapes (some nodes) (some shapes) m m2 R) as K.
  exists m, (some nodes), (some shapes). split; [apply statements_sound, E|split; [exact K|]].
  split; [intros x s F; unfold some; rewrite F; reflexivity|split; [intros x s F; unfold some; rewrite F; reflexivity|]].
  rewrite (all_known_some _ _ _ K) in R. injection R as <-. reflexivity.
Qed.
Print Assumptions C84_sound.

(** The program panics only on what C83 names. *)
Theorem C84_no_panic : forall nodes shapes t, parse nodes shapes t = Panics -> trouble t.
Proof.
  intros nodes shapes t H. apply statements_calm. unfold parse in H. destruct (statements t) as [m| |]; [|discriminate|reflexivity].
  destruct (r_all nodes shapes m); discriminate.
Qed.
Print Assumptions C84_no_panic.

(** * Writing *)

(** A map of one pair is read back. *)
Theorem C84_one_pair_partial : forall nodes shapes node_name shape_name show a t,
  printable nodes shapes node_name shape_name show a -> pp_shapemap node_name shape_name show [a] = Some t -> ~ trouble t ->
  parse nodes shapes t = Done [a].
Proof. exact printed_one. Qed.
Print Assumptions C84_one_pair_partial.

(** A map of more pairs is never read back: the comma is not written. *)
Theorem C84_more_pairs : forall nodes shapes node_name shape_name show a b l t,
  printable nodes shapes node_name shape_name show a -> printable nodes shapes node_name shape_name show b ->
  pp_shapemap node_name shape_name show (a :: b :: l) = Some t -> ~ trouble t -> parse nodes shapes t = Error.
Proof. exact printed_two. Qed.
Print Assumptions C84_more_pairs.

(** The literals that are nodes cannot be written, except numbers: a panic. *)
Theorem C84_literals : forall node_name shape_name show l s, (forall u k, l <> Number u k) ->
  pp_shapemap node_name shape_name show [(SelNode (VLit l), s)] = None.
Proof. intros node_name shape_name show [u|u t|u d|u k|b] s H; try reflexivity. destruct (H _ _ eq_refl). Qed.
Print Assumptions C84_literals.

(** * Examples *)

Definition txt (s : String.string) : str := List.map N_of_ascii (list_ascii_of_string s).
(** Names: [ex:l] is the IRI [e/l]. *)
Definition resolve (x : iri_) : option str :=
  match x with
  | Iri s => Some s
  | Prefixed p l => if list_eq_dec N.eq_dec p (txt "ex") then Some (txt "e/" ++ l) else None
  end.
Definition in_brackets (s : str) : str := [60] ++ s ++ [62].
Definition spell (x : str * numeric) : str := fst x.

Lemma calm_text : forall t, Forall (fun c => c < 92 \/ 92 < c < 128) t -> ~ trouble t.
Proof.
  intros t F [(a & w & b & n & -> & (ds & _ & H) & _)|(c & I & H)].
  - apply Forall_app in F. destruct F as (_ & F). apply Forall_app in F. destruct F as (F & _).
    destruct H as [(-> & _)|(-> & _)]; inversion F; lia.
  - rewrite Forall_forall in F. specialize (F c I). lia.
Qed.
Ltac calm := apply calm_text; repeat (apply Forall_cons; [lia|]); apply Forall_nil.

(* three pairs: a node, a triple pattern, and a query; and an unknown prefix *)
Definition three : str := txt "ex:a@ex:S , { FOCUS a _ }@START, sparql 'q' @ <t>".
Example C84_met : exists m, sentence True three m /\ ~ trouble three /\ all_known resolve resolve m /\
  parse resolve resolve three = Done (renamed (some resolve) (some resolve) m) /\
  parse resolve resolve three =
    Done [(SelNode (VIri (Iri (txt "e/a"))), Label (LIri (Iri (txt "e/S")))); (SelTriple Focus (Iri rdf_type_iri) Wildcard, Start);
          (SelSparql (txt "q"), Label (LIri (Iri (txt "t"))))].
Proof.
  exists [(SelNode (VIri (Prefixed (txt "ex") (txt "a"))), Label (LIri (Prefixed (txt "ex") (txt "S"))));
          (SelTriple Focus (Iri rdf_type_iri) Wildcard, Start); (SelSparql (txt "q"), Label (LIri (Iri (txt "t"))))].
  assert (Sp : forall r, skip (32 :: r) r) by (intros r; apply skip_space; [cbn; tauto|constructor]).
  split; [|split; [unfold three; cbn; calm|split; [|split; vm_compute; reflexivity]]].
  - exists three, []. split; [constructor|split; [|left; constructor]].
    eapply (pairs_more _ three (txt " , { FOCUS a _ }@START, sparql 'q' @ <t>") (txt " { FOCUS a _ }@START, sparql 'q' @ <t>")).
    + apply (pair_ _ three (txt "@ex:S , { FOCUS a _ }@START, sparql 'q' @ <t>") (txt "ex:S , { FOCUS a _ }@START, sparql 'q' @ <t>") (txt "ex:S , { FOCUS a _ }@START, sparql 'q' @ <t>")).
      * apply node_iri, iri_takes. vm_compute. reflexivity.
      * constructor.
      * constructor.
      * apply shape_iri, iri_takes. vm_compute. reflexivity.
    + apply Sp.
    + apply Sp.
    + apply (pairs_more _ _ (txt ", sparql 'q' @ <t>") (txt " sparql 'q' @ <t>") (txt "sparql 'q' @ <t>")).
      * apply (pair_ _ _ (txt "@START, sparql 'q' @ <t>") (txt "START, sparql 'q' @ <t>") (txt "START, sparql 'q' @ <t>")); [| constructor | constructor |].
        -- apply (node_triple _ (txt " FOCUS a _ }@START, sparql 'q' @ <t>") (txt "FOCUS a _ }@START, sparql 'q' @ <t>") (txt " }@START, sparql 'q' @ <t>")); [apply Sp| |apply Sp].
           apply (focus_first _ _ (txt " a _ }@START, sparql 'q' @ <t>") (txt "a _ }@START, sparql 'q' @ <t>") (txt " _ }@START, sparql 'q' @ <t>") (txt "_ }@START, sparql 'q' @ <t>"));
             [exists kw_focus; split; [reflexivity|apply spelled_refl]|apply Sp| |apply Sp|apply obj_any].
           apply pred_a. intros _ c s E P. cbn in E. injection E as <- _. unfold in_name, PN_CHARS, PN_CHARS_U, digit in P. destruct P as [[[P|P]|P]|P]; try (apply base_range in P); lia.
        -- apply shape_start; [exists kw_start; split; [reflexivity|apply spelled_refl]|]. intros _ c s E P. cbn in E. injection E as <- _. unfold in_name, PN_CHARS, PN_CHARS_U, digit in P. destruct P as [[[P|P]|P]|P]; try (apply base_range in P); lia.
      * constructor.
      * apply Sp.
      * apply pairs_one. apply (pair_ _ _ (txt " @ <t>") (txt " <t>") (txt "<t>")); [|apply Sp|apply Sp|apply shape_iri, iri_takes; vm_compute; reflexivity].
        apply (node_sparql _ _ (txt " 'q' @ <t>") (txt "'q' @ <t>")); [|apply Sp|apply string_takes; vm_compute; reflexivity].
        exists (txt "sparql"). split; [reflexivity|]. change (spelled [83; 80; 65; 82; 81; 76] [115; 112; 97; 114; 113; 108]). repeat (constructor; [right; left; lia|]). constructor.
  - intros n s [E|[E|[E|[]]]]; injection E as <- <-; split; intros x I; cbn in I; decompose [or] I; try tauto; subst x; eexists; vm_compute; reflexivity.
Qed.
Example C84_unknown_met : exists m t, sentence True t m /\ ~ trouble t /\ ~ all_known resolve resolve m /\ parse resolve resolve t = Error.
Proof.
  exists [(SelNode (VIri (Prefixed (txt "o") (txt "a"))), Label (LIri (Iri (txt "t"))))], (txt "o:a@<t>").
  split; [|split; [cbn; calm|split; [|vm_compute; reflexivity]]].
  - exists (txt "o:a@<t>"), []. split; [constructor|split; [|left; constructor]]. apply pairs_one.
    apply (pair_ _ _ (txt "@<t>") (txt "<t>") (txt "<t>")); [apply node_iri, iri_takes; vm_compute; reflexivity|constructor|constructor|apply shape_iri, iri_takes; vm_compute; reflexivity].
  - intros K. destruct (K _ _ (or_introl eq_refl)) as (K1 & _). destruct (K1 _ (or_introl eq_refl)) as (s & E). vm_compute in E. discriminate.
Qed.

(* one pair that is written, and two *)
Definition by_type : assoc := (SelTriple Focus (Iri (txt "p")) (Node (VLit (Plain (txt "o")))), Start).
Definition by_name : assoc := (SelNode (VIri (Iri (txt "a"))), Label (LBNode (txt "S"))).
Lemma ref : forall c, letter c -> faithful in_brackets resolve (Iri [c]).
Proof.
  intros c L. exists [c], (Iri [c]). split; [reflexivity|split; [|reflexivity]]. left. exists [c]. split; [reflexivity|]. exists [c]. split; [reflexivity|].
  apply (star_cons _ [c] c [] []); [|constructor]. left. split; [reflexivity|]. unfold letter in L. split; [lia|]. cbn [In]. lia.
Qed.
Lemma by_type_prints : printable resolve resolve in_brackets in_brackets spell by_type.
Proof. split; [split; [apply ref; cbv; intuition discriminate|]|exact Logic.I]. constructor; [cbv; intuition discriminate|constructor]. Qed.
Lemma by_name_prints : printable resolve resolve in_brackets in_brackets spell by_name.
Proof.
  split; [apply ref; cbv; intuition discriminate|]. split; [reflexivity|]. exists 83, []. split; [reflexivity|split; [|constructor]].
  left; left. exists (65, 90). split; [cbn; tauto|cbn; lia].
Qed.
Example C84_one_pair_met : exists t, printable resolve resolve in_brackets in_brackets spell by_type /\
  pp_shapemap in_brackets in_brackets spell [by_type] = Some t /\ ~ trouble t /\ t = txt "{ FOCUS <p> ""o"" }@START".
Proof.
  exists (txt "{ FOCUS <p> ""o"" }@START"). split; [exact by_type_prints|split; [vm_compute; reflexivity|split; [cbn; calm|reflexivity]]].
Qed.
Example C84_more_pairs_met : exists t, printable resolve resolve in_brackets in_brackets spell by_type /\ printable resolve resolve in_brackets in_brackets spell by_name /\
  pp_shapemap in_brackets in_brackets spell [by_type; by_name] = Some t /\ ~ trouble t /\ parse resolve resolve t = Error.
Proof.
  exists (txt "{ FOCUS <p> ""o"" }@START" ++ [10] ++ txt "<a>@_:S"). split; [exact by_type_prints|split; [exact by_name_prints|]].
  split; [vm_compute; reflexivity|split; [cbn; calm|vm_compute; reflexivity]].
Qed.

(** So it is refuted that what is written is read back. *)
Theorem C84_printing_refuted : exists m t, pp_shapemap in_brackets in_brackets spell m = Some t /\ parse resolve resolve t <> Done m.
Proof.
  exists [by_name; by_name], (txt "<a>@_:S" ++ [10] ++ txt "<a>@_:S"). split; [vm_compute; reflexivity|].
  assert (E : parse resolve resolve (txt "<a>@_:S" ++ [10] ++ txt "<a>@_:S") = Error) by (vm_compute; reflexivity). rewrite E. discriminate.
Qed.
Print Assumptions C84_printing_refuted.
(** Nor can all that is read be written. *)
Theorem C84_panic_refuted : exists t m, parse resolve resolve t = Done m /\ forall node_name shape_name show, pp_shapemap node_name shape_name show m = None.
Proof.
  exists (txt "true@START"), [(SelNode (VLit (Bool true)), Start)]. split; [vm_compute; reflexivity|].
  intros node_name shape_name show. apply C84_literals. intros u k E. discriminate.
Qed.
Print Assumptions C84_panic_refuted.
(** A query with a quote is written as it is, and not read back. *)
Theorem C84_query_refuted : exists q t, pp_shapemap in_brackets in_brackets spell [(SelSparql q, Start)] = Some t /\ ~ trouble t /\ parse resolve resolve t = Error.
Proof.
  exists (txt "it's"), (txt "SPARQL '''it's'''@START"). split; [vm_compute; reflexivity|split; [cbn; calm|vm_compute; reflexivity]].
Qed.
Print Assumptions C84_query_refuted.

(** * Where the program differs from the grammar of shape maps *)

Lemma ref_takes : forall i s r, iri_ref i = Ok s r -> takes names i r (Iri s).
Proof.
  intros i s r H. destruct (reads_ok _ _ _ _ _ _ _ (reads_scan _ _ _ _ scan_iri_ref) H) as (w & (E & L) & V).
  exists w. split; [|left; exists s; auto]. split; [exact E|]. intros w' r' v' E' [(s' & -> & N)|N].
  - exact (L _ _ _ E' N).
  - exfalso. assert (F : exists c t, w' = c :: t /\ (c = 58 \/ PN_CHARS_BASE c)).
    { destruct N as [(w1 & w2 & a & b & -> & _ & (-> & N) & _)|(p & _ & -> & N)].
      - destruct N as [->|(c & u & -> & B & _)]; [exists 58, w2; split; [reflexivity|left; reflexivity]|exists c, ((u ++ [58]) ++ w2); split; [reflexivity|right; exact B]].
      - destruct N as [->|(c & u & -> & B & _)]; [exists 58, []; split; [reflexivity|left; reflexivity]|exists c, (u ++ [58]); split; [reflexivity|right; exact B]]. }
    destruct F as (c & t & -> & F). destruct V as (m & -> & _). rewrite E in E'. cbn in E'. injection E' as <- _.
    destruct F as [F|F]; [discriminate|]. apply base_range in F. lia.
Qed.
Lemma string_of : forall c i s r, c <> 34 -> string_literal2 (34 :: c :: i) = Ok s r -> takes STRING (34 :: c :: i) r s.
Proof.
  intros c i s r Nc H. destruct (reads_ok _ _ _ _ _ _ _ (reads_scan _ _ _ _ scan_literal2) H) as (w & (E & L) & V).
  exists w. split; [|right; right; exact V]. split; [exact E|]. intros w' r' v' E' [[(vs & _ & m & -> & _)|(vs & _ & m & -> & _)]|[(m & -> & _)|N]].
  - cbn in E'. discriminate.
  - cbn in E'. injection E' as E' _. destruct (Nc E').
  - cbn in E'. discriminate.
  - exact (L _ _ _ E' N).
Qed.

(** The empty map, and a map of white space, is refused. *)
Theorem C84_empty_refuted : exists t, official t /\ forall nodes shapes, parse nodes shapes t = Error.
Proof. exists []. split; [left; constructor|intros nodes shapes; vm_compute; reflexivity]. Qed.
Print Assumptions C84_empty_refuted.

(** So is a map whose shapes carry a status. *)
Theorem C84_status_refuted : exists t, official t /\ forall nodes shapes, parse nodes shapes t = Error.
Proof.
  exists (txt "<n>@!<s>"). split; [|intros nodes shapes; vm_compute; reflexivity]. right. exists (txt "<n>@!<s>"). split; [constructor|].
  apply (o_one _ (txt "@!<s>") (txt "@!<s>") []); [|constructor| |constructor].
  - eapply o_iri, ref_takes. vm_compute. reflexivity.
  - eapply (o_status _ _ 33 (txt "<s>")); [reflexivity|constructor|left; reflexivity|]. exists (txt "<s>"). split; [constructor|].
    eexists. apply ref_takes. vm_compute. reflexivity.
Qed.
Print Assumptions C84_status_refuted.

(** So is a triple pattern with a blank node. *)
Theorem C84_blank_node_refuted : exists t, official t /\ forall nodes shapes, parse nodes shapes t = Error.
Proof.
  exists (txt "{FOCUS<p>_:b}@<s>"). split; [|intros nodes shapes; vm_compute; reflexivity]. right. exists (txt "{FOCUS<p>_:b}@<s>"). split; [constructor|].
  apply (o_one _ (txt "@<s>") (txt "@<s>") []); [|constructor| |constructor].
  - apply (o_triple (txt "FOCUS<p>_:b}@<s>") (txt "FOCUS<p>_:b}@<s>") (txt "<p>_:b}@<s>") (txt "<p>_:b}@<s>") (txt "_:b}@<s>") (txt "_:b}@<s>") (txt "}@<s>"));
      [constructor|exists kw_focus; split; [reflexivity|apply spelled_refl]|constructor| |constructor| |constructor].
    + eexists. apply ref_takes. vm_compute. reflexivity.
    + apply (o_bnode _ _ (txt "b")). exists (txt "_:b"). split.
      * split; [reflexivity|]. intros w' r' v' E (-> & c & u & -> & _ & H).
        cbn in E. injection E as <- E. destruct u as [|d u]; [cbn; lia|]. cbn in E. injection E as <- E.
        destruct H as [H|(m & d & E2 & F & D)]; [discriminate|].
        assert (B : dot_or PN_CHARS 125).
        { destruct m as [|x m]; cbn in E2; injection E2 as <- E2; [right; exact D|]. inversion F; assumption. }
        exfalso. unfold dot_or, PN_CHARS, PN_CHARS_U, digit in B. destruct B as [B|[[B|B]|B]]; [lia|apply base_range in B; lia|lia|lia].
      * split; [reflexivity|]. exists 98, []. split; [reflexivity|split; [|left; reflexivity]]. left; left. exists (97, 122). split; [cbn; tauto|cbn; lia].
  - eapply o_label; [reflexivity|]. exists (txt "<s>"). split; [constructor|]. eexists. apply ref_takes. vm_compute. reflexivity.
Qed.
Print Assumptions C84_blank_node_refuted.

(** A string and the shape behind it are taken for a string with a language,
    whatever the string (with its quotes) and the shape. *)
Theorem C84_language_refuted : exists t, official t /\ forall nodes shapes, parse nodes shapes t = Error.
Proof.
  exists (txt """o""@e:S"). split; [|intros nodes shapes; vm_compute; reflexivity]. right. exists (txt """o""@e:S"). split; [constructor|].
  apply (o_one _ (txt "@e:S") (txt "@e:S") []); [|constructor| |constructor].
  - eapply o_string, string_of; [|vm_compute; reflexivity]. vm_compute. discriminate.
  - assert (A : at_name (txt "@e:S")).
    { exists (txt "e:S"), (Prefixed (txt "e") (txt "S")). split; [reflexivity|]. left. exists (txt "e:"), (txt "S"), (txt "e"), (txt "S").
      split; [reflexivity|split; [reflexivity|split]].
      - split; [reflexivity|right]. exists 101, []. split; [reflexivity|split; [|left; reflexivity]]. exists (97, 122). split; [cbn; tauto|cbn; lia].
      - exists (txt "S"), [], (txt "S"), []. split; [reflexivity|split; [reflexivity|split; [|left; auto]]]. left. exists 83. split; [reflexivity|split; [reflexivity|]].
        left; left. exists (65, 90). split; [cbn; tauto|cbn; lia]. }
    apply (o_token _ (txt "@e:S")); [|exact A]. split; [reflexivity|]. intros w' r' v' E _. rewrite E, app_length. lia.
Qed.
Print Assumptions C84_language_refuted.

(** A subject whose prefix starts with the letters of FOCUS is taken for the focus. *)
Definition any_name (x : iri_) : option str := match x with Iri s => Some s | Prefixed p l => Some (p ++ [58] ++ l) end.
Theorem C84_focus_refuted : exists t m, sentence False t m /\ ~ trouble t /\ all_known any_name any_name m /\ parse any_name any_name t = Error.
Proof.
  exists (txt "{focus:x <p> FOCUS}@<s>"), [(SelTriple (Node (VIri (Prefixed (txt "focus") (txt "x")))) (Iri (txt "p")) Focus, Label (LIri (Iri (txt "s"))))].
  assert (Sp : forall r, skip (32 :: r) r) by (intros r; apply skip_space; [cbn; tauto|constructor]).
  split; [|split; [cbn; calm|split; [|vm_compute; reflexivity]]].
  - exists (txt "{focus:x <p> FOCUS}@<s>"), []. split; [constructor|split; [|left; constructor]]. apply pairs_one.
    apply (pair_ _ _ (txt "@<s>") (txt "<s>") (txt "<s>")); [|constructor|constructor|apply shape_iri, iri_takes; vm_compute; reflexivity].
    apply (node_triple _ (txt "focus:x <p> FOCUS}@<s>") (txt "focus:x <p> FOCUS}@<s>") (txt "}@<s>")); [constructor| |constructor].
    apply (focus_last _ (txt "focus:x <p> FOCUS}@<s>") (txt " <p> FOCUS}@<s>") (txt "<p> FOCUS}@<s>") (txt " FOCUS}@<s>") (txt "FOCUS}@<s>"));
      [intros []| |apply Sp| |apply Sp|exists kw_focus; split; [reflexivity|apply spelled_refl]].
    + apply obj_iri, iri_takes. vm_compute. reflexivity.
    + apply pred_iri, iri_takes. vm_compute. reflexivity.
  - intros n s [E|[]]. injection E as <- <-. split; intros x I; cbn in I; decompose [or] I; try tauto; subst x; eexists; vm_compute; reflexivity.
Qed.
Print Assumptions C84_focus_refuted.

(** A node selector or a shape selector on its own: what follows it is dropped. *)
Theorem C84_rest_refuted :
  (exists t n, parse_node_selector t = Done n /\ forall n' r, node_at False t r n' -> ~ skip r []) /\
  (exists t s, parse_shape_selector t = Done s /\ forall s' r, shape_at False t r s' -> ~ skip r []).
Proof.
  assert (One : forall r x, takes IRI (txt "<a>}") r x -> r = [125]).
  { intros r x H. assert (H' : takes IRI (txt "<a>}") [125] (Iri [97])) by (apply iri_takes; vm_compute; reflexivity).
    destruct H as (w & (E & L) & V), H' as (w' & (E' & L') & V'). assert (H : List.length w = List.length w').
    { pose proof (L _ _ _ E' V'). pose proof (L' _ _ _ E V). lia. }
    rewrite E in E'. assert (K : w' = w). { destruct (app_short _ _ _ _ E' ltac:(lia)) as (m & -> & _). rewrite app_length in H. destruct m; [apply app_nil_r|cbn in H; lia]. }
    subst w'. apply app_inv_head in E'. exact E'. }
  assert (Last : forall r, r = [125] -> ~ skip r []) by (intros r -> H; inversion H as [|c i r0 I|w i r0 F E1 E2 E3|w i r0 F E1 E2]; cbn in I; intuition discriminate).
  split.
  - exists (txt "<a>}"), (SelNode (VIri (Iri [97]))). split; [vm_compute; reflexivity|]. intros n' r H.
    remember (txt "<a>}") as t eqn:Et. destruct H as [i r x H|i r l H|i r l H|j1 j2 j3 r u S1 H S2|j1 j2 j3 r q H S1 S2].
    + subst i. eapply Last, One, H.
    + exfalso. destruct H as (w & (E & _) & V & _). subst i. rewrite V in E. discriminate.
    + exfalso. destruct H as [i r l H|i r u k H|r H|r H]; [| |discriminate|discriminate].
      * destruct (takes_first _ _ _ _ _ _ lit_first H) as (c & s & E & K). subst i. injection E as <- _. unfold quote in K. lia.
      * destruct (takes_first _ _ _ _ _ _ number_first H) as (c & s & E & K). subst i. injection E as <- _. unfold digit in K. lia.
    + discriminate.
    + exfalso. destruct H as (w & E & Sp). inversion Sp as [|a d k w' Hs Sp']; subst. injection E as <- _. unfold same_letter in Hs. lia.
  - exists (txt "<a>}"), (Label (LIri (Iri [97]))). split; [vm_compute; reflexivity|]. intros s' r H.
    remember (txt "<a>}") as t eqn:Et. destruct H as [i r x H|i r l H|i r H _].
    + subst i. eapply Last, One, H.
    + exfalso. destruct H as (w & (E & _) & V & _). subst i. rewrite V in E. discriminate.
    + exfalso. destruct H as (w & E & Sp). inversion Sp as [|a d k w' Hs Sp']; subst. injection E as <- _. unfold same_letter in Hs. lia.
Qed.
Print Assumptions C84_rest_refuted.
