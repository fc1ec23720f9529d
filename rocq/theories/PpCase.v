(** The case of the letters in keywords makes no difference to the parsers,
    where every keyword that could match the word is compared without case. *)
From Coq Require Import String Ascii List ZArith Bool Lia.
From Verif Require Import PsModel PsSpec.
Import ListNotations.
Local Open Scope string_scope.
Local Open Scope list_scope.

(** The keywords the parsers look for, and whether case is ignored. *)
Definition tags : list (bool * string) :=
  [(false, "a"); (true, "MINLENGTH"); (true, "MAXLENGTH"); (true, "LENGTH");
   (false, "MININCLUSIVE"); (false, "MAXINCLUSIVE"); (false, "MINEXCLUSIVE"); (false, "MAXEXCLUSIVE");
   (false, "TOTALDIGITS"); (false, "FRACTIONDIGITS");
   (true, "IRI"); (true, "BNODE"); (true, "NONLITERAL"); (true, "LITERAL");
   (true, "extends"); (false, "CLOSED"); (false, "EXTRA"); (true, "NOT"); (true, "AND"); (true, "OR");
   (true, "BASE"); (true, "PREFIX"); (true, "IMPORT"); (true, "START"); (true, "EXTERNAL"); (true, "abstract")].

Definition alike (w v : string) : Prop := forall nc k, In (nc, k) tags ->
  cut_tag nc k w = cut_tag nc k v /\ (cut_tag nc k w = None \/ cut_tag nc k w = Some "").
Definition rtok (t u : tok) : Prop := t = u \/ exists w v, t = TWord w /\ u = TWord v /\ alike w v.
Definition R (i j : text) : Prop := Forall2 (fun x y => fst x = fst y /\ rtok (snd x) (snd y)) i j.
Definition rel {A} (r s : res A) : Prop :=
  match r, s with
  | Ok v i, Ok w j => v = w /\ R i j
  | Err, Err | Fail, Fail | Panic, Panic | Fuel, Fuel => True
  | _, _ => False
  end.
Definition resp {A} (p : parser A) : Prop := forall i j, R i j -> rel (p i) (p j).

Lemma tws0_R i j : R i j -> R (tws0 i) (tws0 j).
Proof.
  intros H. destruct H as [|[b t] [c u] i j [H1 H2] H]; cbn; [constructor|].
  constructor; [|exact H]. split; [reflexivity|exact H2].
Qed.
Lemma bind_rel {A B} (r s : res A) (k : A -> text -> res B) : rel r s ->
  (forall v i j, R i j -> rel (k v i) (k v j)) -> rel (bind r k) (bind s k).
Proof.
  intros H K. destruct r, s; cbn in *; try contradiction; try exact Logic.I.
  destruct H as [-> H]. apply K, H.
Qed.
Lemma map_rel {A B} (f : A -> B) p i j : resp p -> R i j -> rel (map f p i) (map f p j).
Proof. intros P H. unfold map. apply bind_rel; [apply P, H|]. intros v a b Hab. split; [reflexivity|exact Hab]. Qed.
Lemma alt_rel {A} (p q : parser A) i j : resp p -> resp q -> R i j -> rel (alt p q i) (alt p q j).
Proof.
  intros P Q H. unfold alt. specialize (P i j H). specialize (Q i j H).
  destruct (p i), (p j); cbn in *; try contradiction; try exact Logic.I; assumption.
Qed.
Lemma opt_rel {A} (p : parser A) i j : resp p -> R i j -> rel (opt p i) (opt p j).
Proof.
  intros P H. unfold opt. specialize (P i j H).
  destruct (p i), (p j); cbn in *; try contradiction; try exact Logic.I; [destruct P as [-> P]|]; split; trivial.
Qed.
Lemma cut_rel {A} (p : parser A) i j : resp p -> R i j -> rel (cut p i) (cut p j).
Proof.
  intros P H. unfold cut. specialize (P i j H).
  destruct (p i), (p j); cbn in *; try contradiction; try exact Logic.I; assumption.
Qed.
Lemma many0_rel {A} n (p : parser A) : resp p -> forall i j, R i j -> rel (many0 n p i) (many0 n p j).
Proof.
  intros P. induction n as [|n IH]; intros i j H; cbn [many0]; [exact Logic.I|].
  specialize (P i j H). destruct (p i) as [v r| | | |], (p j) as [w s| | | |]; cbn in P; try contradiction; try exact Logic.I.
  - destruct P as [-> P]. apply bind_rel; [apply IH, P|]. intros vs a b Hab. split; [reflexivity|exact Hab].
  - split; [reflexivity|exact H].
Qed.
Lemma many1_rel {A} n (p : parser A) i j : resp p -> R i j -> rel (many1 n p i) (many1 n p j).
Proof.
  intros P H. unfold many1. apply bind_rel; [apply P, H|]. intros v a b Hab.
  apply bind_rel; [apply many0_rel; assumption|]. intros vs c d Hcd. split; [reflexivity|exact Hcd].
Qed.
Lemma word_rel nc k i j : In (nc, k) tags -> R i j -> rel (word nc k i) (word nc k j).
Proof.
  intros K H. destruct H as [|[b t] [c u] i j [H1 H2] H]; cbn [word]; [exact Logic.I|].
  cbn in H1. subst c. cbn [snd] in H2. destruct H2 as [<-|(w & v & -> & -> & H2)].
  - destruct b; [destruct t; exact Logic.I|]. destruct t; try exact Logic.I; cbn [word].
    + destruct (cut_tag nc k w) as [[|a w']|]; try exact Logic.I; (split; [reflexivity|]); [exact H|].
      constructor; [split; [reflexivity|left; reflexivity]|exact H].
    + destruct (cut_tag nc k prefix) as [w'|]; try exact Logic.I; (split; [reflexivity|]).
      constructor; [split; [reflexivity|left; reflexivity]|exact H].
  - destruct b; [exact Logic.I|]. cbn [word]. destruct (H2 nc k K) as [<- [->| ->]]; [exact Logic.I|].
    split; [reflexivity|exact H].
Qed.

(** Terminals look at one token that is no word. *)
Ltac terminal :=
  let H := fresh in let b := fresh in let t := fresh in let c := fresh in let u := fresh in
  let H1 := fresh in let H2 := fresh in let r := fresh in let s := fresh in
  intros ? ? H; destruct H as [|[b t] [c u] r s [H1 H2] H]; [exact Logic.I|];
  cbn [fst snd] in H1, H2; subst c;
  destruct H2 as [<-|(? & ? & -> & -> & H2)];
  [destruct b; destruct t; cbn; try exact Logic.I; try (split; [reflexivity|exact H])
  |destruct b; exact Logic.I].
Lemma char_rel c i j : R i j -> rel (char c i) (char c j).
Proof.
  revert i j. terminal. destruct (punct_eqb c p); [split; [reflexivity|assumption]|exact Logic.I].
Qed.
Lemma token_tws_rel c i j : R i j -> rel (token_tws c i) (token_tws c j).
Proof.
  intros H. unfold token_tws. apply bind_rel; [apply char_rel, tws0_R, H|].
  intros v a b Hab. split; [reflexivity|apply tws0_R, Hab].
Qed.
Lemma word_tws_rel nc k i j : In (nc, k) tags -> R i j -> rel (word_tws nc k i) (word_tws nc k j).
Proof.
  intros K H. unfold word_tws. apply bind_rel; [apply word_rel; [exact K|apply tws0_R, H]|].
  intros v a b Hab. split; [reflexivity|apply tws0_R, Hab].
Qed.
Lemma sep_loop_rel {A} n (p : parser A) k : In (true, k) tags -> resp p ->
  forall vs i j, R i j -> rel (sep_loop n p k vs i) (sep_loop n p k vs j).
Proof.
  intros K P. induction n as [|n IH]; intros vs i j H; cbn [sep_loop]; [exact Logic.I|].
  pose proof (word_tws_rel true k _ _ K (tws0_R _ _ H)) as S. unfold symbol.
  destruct (word_tws true k (tws0 i)) as [v r| | | |], (word_tws true k (tws0 j)) as [v' r'| | | |];
    cbn in S; try contradiction; try (split; [reflexivity|apply tws0_R, H]).
  destruct S as [_ S]. specialize (P _ _ (tws0_R _ _ S)).
  destruct (p (tws0 r)) as [x a| | | |], (p (tws0 r')) as [y b| | | |]; cbn in P; try contradiction; try exact Logic.I;
    try (split; [reflexivity|apply tws0_R, S]).
  destruct P as [-> P]. apply IH, P.
Qed.
Lemma many1_sep_rel {A B} n (p : parser A) k (f : list A -> B) i j : In (true, k) tags -> resp p -> R i j ->
  rel (many1_sep n p k f i) (many1_sep n p k f j).
Proof.
  intros K P H. unfold many1_sep. apply bind_rel; [apply P, tws0_R, H|]. intros v a b Hab.
  apply bind_rel; [apply sep_loop_rel; assumption|]. intros vs c d Hcd. split; [reflexivity|exact Hcd].
Qed.

Ltac tagged := cbv [tags In]; tauto.
Ltac step :=
  match goal with
  | |- resp _ => intros ? ? ?
  | |- rel (bind _ _) (bind _ _) => apply bind_rel; [|intros ? ? ? ?]
  | |- rel (map _ _ _) _ => apply map_rel
  | |- rel (alt _ _ _) _ => apply alt_rel
  | |- rel (opt _ _) _ => apply opt_rel
  | |- rel (cut _ _) _ => apply cut_rel
  | |- rel (many0 _ _ _) _ => apply many0_rel
  | |- rel (many1 _ _ _) _ => apply many1_rel
  | |- rel (many1_sep _ _ _ _ _) _ => apply many1_sep_rel; [tagged| |]
  | |- rel (word _ _ _) _ => apply word_rel; [tagged|]
  | |- rel (word_tws _ _ _) _ => apply word_tws_rel; [tagged|]
  | |- rel (symbol _ _) _ => apply word_tws_rel; [tagged|]
  | |- rel (char _ _) _ => apply char_rel
  | |- rel (token_tws _ _) _ => apply token_tws_rel
  | |- rel (Ok _ _) (Ok _ _) => split; [reflexivity|]
  | |- rel Err Err => exact Logic.I
  | |- rel Panic Panic => exact Logic.I
  | |- rel (or_panic ?o _) _ => destruct o; cbn [or_panic]
  | |- R (tws0 _) (tws0 _) => apply tws0_R
  | |- R _ _ => assumption
  | H : resp ?p |- rel (?p _) (?p _) => apply H
  | H : forall b, resp (?p b) |- rel (?p _ _) (?p _ _) => apply H
  | |- rel (?p _) (?p _) => solve [revert_R; eauto with resp]
  | |- rel ((fun _ => _) _) _ => cbv beta
  end
with revert_R :=
  match goal with |- rel (?p ?i) (?p ?j) =>
    let K := fresh in cut (resp p); [intros K; apply K; repeat apply tws0_R; assumption|] end.
Ltac steps := repeat step.

Create HintDb resp.
Lemma iri_resp : resp iri. Proof. terminal. Qed.
Lemma iri_ref_resp : resp iri_ref. Proof. terminal. Qed.
Lemma pname_ns_resp : resp pname_ns. Proof. terminal. destruct local; [exact Logic.I|split; [reflexivity|assumption]]. Qed.
Lemma blank_node_resp : resp blank_node. Proof. terminal. Qed.
Lemma shape_ref_resp : resp shape_ref. Proof. terminal. Qed.
Lemma integer_resp : resp integer. Proof. terminal. Qed.
Lemma regexp_resp : resp regexp. Proof. terminal. Qed.
Lemma raw_numeric_resp : resp raw_numeric_literal. Proof. terminal. Qed.
Lemma code_or_percent_resp : resp code_or_percent.
Proof. terminal. destruct p; try exact Logic.I. split; [reflexivity|assumption]. Qed.
Lemma repeat_range_resp : resp repeat_range. Proof. terminal. Qed.
#[export] Hint Resolve iri_resp iri_ref_resp pname_ns_resp blank_node_resp shape_ref_resp integer_resp regexp_resp
  raw_numeric_resp code_or_percent_resp repeat_range_resp : resp.
Lemma predicate_resp : resp predicate. Proof. unfold predicate, rdf_type. steps. Qed.
Lemma label_resp : resp a_label. Proof. unfold a_label. steps. Qed.
Lemma literal_resp : resp (fun i => match i with (false, TLit l) :: r => Ok (VLit l) r | _ => Err end).
Proof. terminal. Qed.
Lemma iri_or_literal_resp : resp iri_or_literal.
Proof. unfold iri_or_literal. intros i j H. apply alt_rel; [steps|exact literal_resp|exact H]. Qed.
#[export] Hint Resolve predicate_resp label_resp iri_or_literal_resp : resp.
Lemma pos_integer_resp : resp pos_integer.
Proof. unfold pos_integer. steps. destruct (_ <? 0)%Z; steps. Qed.
#[export] Hint Resolve pos_integer_resp : resp.
Lemma string_facet_resp : resp string_facet.
Proof. unfold string_facet, string_length, a_length. steps. Qed.
Lemma numeric_facet_resp : resp numeric_facet.
Proof. unfold numeric_facet, numeric_range_lit, numeric_length_int, numeric_range, numeric_length. steps. Qed.
#[export] Hint Resolve string_facet_resp numeric_facet_resp : resp.
Lemma xs_facet_resp : resp xs_facet.
Proof. unfold xs_facet. steps. Qed.
#[export] Hint Resolve xs_facet_resp : resp.
Lemma non_lit_resp n : resp (non_lit_node_constraint n).
Proof. unfold non_lit_node_constraint, non_literal_kind. steps. Qed.
Lemma value_set_resp : resp value_set.
Proof.
  intros i j H. unfold value_set. destruct H as [|[b t] [c u] r s [H1 H2] H]; [exact Logic.I|].
  cbn [fst snd tws0] in *. destruct H2 as [<-|(? & ? & -> & -> & H2)]; [|exact Logic.I].
  destruct t; try exact Logic.I. steps.
Qed.
#[export] Hint Resolve value_set_resp : resp.
Lemma lit_resp n : resp (lit_node_constraint n).
Proof. unfold lit_node_constraint, literal_facets, datatype_facets, value_set_facets, numeric_facets. steps. Qed.
Lemma annotation_resp : resp annotation.
Proof. unfold annotation. steps. Qed.
#[export] Hint Resolve non_lit_resp lit_resp annotation_resp : resp.
Lemma annotations_resp n : resp (annotations n).
Proof. unfold annotations. steps. Qed.
Lemma code_decl_resp : resp code_decl.
Proof. unfold code_decl. steps. Qed.
#[export] Hint Resolve annotations_resp code_decl_resp : resp.
Lemma actions_resp n : resp (semantic_actions n).
Proof. unfold semantic_actions. steps. Qed.
Lemma cardinality_resp : resp cardinality.
Proof. unfold cardinality. steps. Qed.
Lemma qualifiers_resp n : resp (qualifiers n).
Proof. unfold qualifiers, qualifier, extension, closed, extra_property_set. steps. Qed.
#[export] Hint Resolve actions_resp cardinality_resp qualifiers_resp : resp.

Section Nested.
Variable n : nat.
Variable rec_se : bool -> parser se.
Variable rec_te : parser te.
Hypothesis Hse : forall b, resp (rec_se b).
Hypothesis Hte : resp rec_te.

Lemma maybe_resp : resp (maybe_triple_expr rec_te).
Proof. unfold maybe_triple_expr. steps. Qed.
#[local] Hint Resolve maybe_resp : resp.
Lemma definition_resp : resp (shape_definition n rec_te).
Proof. unfold shape_definition. steps. Qed.
Lemma inline_definition_resp : resp (inline_shape_definition n rec_te).
Proof. unfold inline_shape_definition. steps. destruct (extends_of _); steps. Qed.
#[local] Hint Resolve definition_resp inline_definition_resp : resp.
Lemma shape_or_ref_resp inl : resp (shape_or_ref n rec_te inl).
Proof. unfold shape_or_ref. destruct inl; steps. Qed.
#[local] Hint Resolve shape_or_ref_resp : resp.
Lemma atom_resp inl : resp (shape_atom n rec_se rec_te inl).
Proof. unfold shape_atom, non_lit_opt_shape_or_ref, shape_opt_non_lit, paren_shape_expr, dot. steps. Qed.
#[local] Hint Resolve atom_resp : resp.
Lemma or_resp inl : resp (shape_or n rec_se rec_te inl).
Proof. unfold shape_or, shape_and, shape_not. steps. Qed.
Lemma sense_resp : resp sense_flags.
Proof. unfold sense_flags. steps. Qed.
#[local] Hint Resolve sense_resp : resp.
Lemma constraint_resp : resp (triple_constraint n rec_se).
Proof. unfold triple_constraint. steps. Qed.
Lemma bracketed_resp : resp (bracketed_triple_expr n rec_te).
Proof. unfold bracketed_triple_expr. steps. Qed.
#[local] Hint Resolve constraint_resp bracketed_resp : resp.
Lemma unary_resp : resp (unary_triple_expr n rec_se rec_te).
Proof. unfold unary_triple_expr, include_, triple_expr_label_opt. steps. Qed.
#[local] Hint Resolve unary_resp : resp.
Lemma group_resp : resp (group_triple_expr n rec_se rec_te).
Proof. unfold group_triple_expr, multi_element_group, single_element_group, opt_semi. steps. Qed.
#[local] Hint Resolve group_resp : resp.
Lemma one_of_resp : resp (one_of_triple_expr n rec_se rec_te).
Proof. unfold one_of_triple_expr, multi_element_one_of. steps. Qed.
End Nested.

Lemma nested_resp n : (forall inl, resp (shape_expression n inl)) /\ resp (triple_expression n).
Proof.
  induction n as [|n [IH1 IH2]]; [split; intros; intros i j H; exact Logic.I|].
  split; [intros inl i j H; cbn [shape_expression]; apply or_resp|
          intros i j H; cbn [triple_expression]; apply one_of_resp]; assumption.
Qed.
Lemma se_resp n inl : resp (shape_expression n inl). Proof. apply nested_resp. Qed.
#[export] Hint Resolve se_resp : resp.
Lemma statement_resp n : resp (statement n).
Proof.
  unfold statement, directive, base_decl, prefix_decl, import_decl, start, shape_expr_decl, start_actions,
    shape_expr_or_external, external. steps.
Qed.
Lemma statements_R n : forall k acc i j, R i j -> statements k n acc i = statements k n acc j.
Proof.
  induction k as [|k IH]; intros acc i j H; (destruct H as [|x y i j Hx H]; cbn [statements]; [reflexivity|]);
    [reflexivity|].
  pose proof (statement_resp n (x :: i) (y :: j) (Forall2_cons _ _ Hx H)) as S.
  destruct (statement n (x :: i)) as [v r| | | |], (statement n (y :: j)) as [w s| | | |]; cbn in S; try contradiction;
    try reflexivity.
  destruct S as [-> S]. apply IH, tws0_R, S.
Qed.
Theorem parse_R n i j : R i j -> parse n i = parse n j.
Proof. intros H. apply statements_R, tws0_R, H. Qed.
