(** C89: reading ShExR. *)
From Coq Require Import List Bool NArith Lia Permutation.
Import ListNotations.
From Verif Require Import PathModel PathSpec PathLemmas ReportModel ReportSpec ReportLemmas RdsModel ShrModel ShrSpec ShrLemmas.

Section Schema.
  Variable ord : list term -> list term.
  Variable L : lits.
  Variable g : graph.
  Hypothesis any : any_order ord.

  Lemma the_instances c : exists l, instances ord g c = l /\ NoDup l /\ forall s, In s l <-> In (s, rdf_type, TIri c) g.
  Proof.
    unfold instances, subjects_for. eexists. split; [reflexivity|]. split.
    - apply (Permutation_NoDup (Permutation_sym (any _))). apply tset_nodup.
    - intro s. rewrite (ord_in' ord any), tset_in, in_map_iff. split.
      + intros ([[a b] o] & E & H). cbn in E. subst a. apply filter_In in H. destruct H as [H K]. cbn in K. apply andb_true_iff in K.
        destruct K as [K1 K2]. apply term_eqb_iff in K1. apply N.eqb_eq in K2. subst. exact H.
      + intro H. exists (s, rdf_type, TIri c). split; [reflexivity|]. apply filter_In. split; [exact H|]. cbn. rewrite N.eqb_refl. reflexivity.
  Qed.
  Lemma one_instance c root f : (forall t, In (t, rdf_type, TIri c) g <-> t = root) -> single_instance ord g c f = (Ok root, f).
  Proof.
    intro H. unfold single_instance. destruct (the_instances c) as (l & -> & N & M).
    assert (M' : forall s, In s l <-> s = root) by (intro s; rewrite M; apply H). clear M H. destruct l as [|a [|b l]].
    - destruct (proj2 (M' root) eq_refl).
    - rewrite (proj1 (M' a) (or_introl eq_refl)). reflexivity.
    - pose proof (proj1 (M' a) (or_introl eq_refl)). pose proof (proj1 (M' b) (or_intror (or_introl eq_refl))). subst. inversion N as [|? ? X]; subst. destruct X. left. reflexivity.
  Qed.
  Lemma instance_inv c f t f' : single_instance ord g c f = (Ok t, f') -> (forall s, In (s, rdf_type, TIri c) g <-> s = t).
  Proof.
    unfold single_instance. destruct (the_instances c) as (l & -> & N & M). destruct l as [|a [|b l]]; try discriminate. intro H. injection H as <- _.
    intro s. rewrite <- M. cbn. intuition congruence.
  Qed.
  Lemma instance_fails c f r f' : single_instance ord g c f = (r, f') -> r <> OutOfFuel /\ r <> Panic.
  Proof. unfold single_instance. destruct (instances ord g c) as [|a [|b l]]; intro H; injection H as <- <-; split; discriminate. Qed.
End Schema.

(** *** What is read of a graph that describes a schema, however sets are walked: every declaration is read, and of its
    expression what is left. Whether that ends depends on the fuel alone, of which there is enough. *)
Theorem C89_reads ord L g root s : any_order ord -> rdf_graph g -> tidy g -> describes L g root s ->
  exists n, forall fuel f, n <= fuel -> fst (parse_schema ord L g fuel f) =
    match s_shapes s with None => Err | Some ds => Ok (mkSchema None (Some (map left_of_decl ds))) end.
Proof.
  intros any wf neat (H1 & _ & H3). pose proof (subject_of g wf root rdf_type _ (proj2 (H1 root) eq_refl)) as E.
  destruct (s_shapes s) as [ds|]; cbn [maybe] in H3.
  - destruct H3 as (l & O & ts & C & F).
    assert (X : exists n, forall fuel, n <= fuel -> Forall2 (fun t d => forall f, exists f', pbind (set_focus t) (fun _ => shape_decl ord L g fuel) f = (Ok d, f')) ts (map left_of_decl ds)).
    { clear C O. induction F as [|t d ts ds D F IH]; [exists 0; intros; constructor|]. destruct IH as (m & M).
      destruct D as (Lb & Nl & _ & x & Ox & De). destruct (reads_left ord L g any wf neat (d_expr d) x De) as (n & N).
      exists (n + m). intros fuel Fu. cbn [map]. constructor; [|apply M; lia]. intro f. destruct (N fuel ltac:(lia)) as (f' & Ef). exists f'.
      unfold pbind at 1, set_focus. unfold shape_decl, pbind at 1, get_focus. unfold pbind at 1, pres.
      assert (shape_label t = Ok t) as -> by (destruct t as [i|b|i]; [reflexivity|reflexivity|exfalso; exact (Nl i eq_refl)]).
      unfold pbind at 1. rewrite (single_only ord g any t _ _ (subject_of g wf t _ x (proj2 (Ox x) eq_refl)) Ox).
      unfold pbind at 1, set_focus. unfold pbind at 1. rewrite Ef. unfold pret, left_of_decl. rewrite Lb. reflexivity. }
    destruct X as (n & X). exists n. intros fuel f Fu. specialize (X fuel Fu). unfold parse_schema, pbind at 1. rewrite (one_instance ord g any _ root f H1).
    unfold pbind at 1, set_focus. unfold pbind at 1. rewrite (single_only ord g any root _ _ E O). unfold pbind at 1, set_focus.
    unfold pmapr, pbind at 1, listed, pbind at 1. rewrite (list_chain ord g any l ts C).
    destruct (pmap_ok2 (fun t => pbind (set_focus t) (fun _ => shape_decl ord L g fuel)) ts _ X (TIri rdf_nil)) as (f' & Ef). rewrite Ef. reflexivity.
  - exists 0. intros fuel f _. unfold parse_schema, pbind at 1. rewrite (one_instance ord g any _ root f H1).
    unfold pbind at 1, set_focus. unfold pbind at 1. rewrite (single_no ord g any root _ H3). reflexivity.
Qed.
Print Assumptions C89_reads.

(** *** Schemas that the reader knows are read as they are. For all schemas this is false, see below. *)
Theorem C89_schema_partial ord L g root s : any_order ord -> rdf_graph g -> tidy g -> describes L g root s -> simple_schema s ->
  exists n, forall fuel f, n <= fuel -> fst (parse_schema ord L g fuel f) = Ok s.
Proof.
  intros any wf neat D (S1 & ds & S2 & F). destruct (C89_reads ord L g root s any wf neat D) as (n & H). exists n. intros fuel f Fu.
  rewrite (H fuel f Fu), S2. destruct s as [st sh]. cbn in S1, S2. subst. do 3 f_equal. clear -F.
  induction F as [|d ds [A B] F IH]; [reflexivity|]. cbn. rewrite IH. f_equal. destruct d as [lb ab e]. cbn in *. subst ab. unfold left_of_decl. cbn. rewrite (simple_left e B). reflexivity.
Qed.
Print Assumptions C89_schema_partial.

(** *** Reading an expression never fails and never panics, whatever the graph says and wherever the focus is: it gives an
    expression, or does not end. *)
Theorem C89_never_fails ord L g fuel f : any_order ord ->
  (exists e, fst (shape_expr ord L g fuel f) = Ok e /\ poor e) \/ fst (shape_expr ord L g fuel f) = OutOfFuel.
Proof.
  intro any. pose proof (shape_expr_never_err ord L g any fuel f) as [A B]. pose proof (shape_expr_poor ord L g any fuel f) as P.
  destruct (shape_expr ord L g fuel f) as [[e| | |] f']; cbn in *; try congruence; [left; exists e; split; [reflexivity|exact (P e f' eq_refl)]|right; reflexivity].
Qed.
Print Assumptions C89_never_fails.

(** *** Whatever is read, from any graph: it declares the members of a list that the one schema of the graph names, in
    their order, none of them abstract, none of them a literal; there is no start; and no expression says more than that a
    node is of a kind or one of some IRIs, or has a shape of which nothing is known but whether it is closed. *)
Theorem C89_read ord L g fuel f s : any_order ord -> fst (parse_schema ord L g fuel f) = Ok s ->
  s_start s = None /\ exists root l ts ds, (forall t, In (t, rdf_type, TIri sx_schema) g <-> t = root) /\ In (root, sx_shapes, l) g /\ rdf_list g l ts /\
    s_shapes s = Some ds /\ map d_label ds = ts /\
    Forall (fun d => d_abstract d = false /\ (forall n, d_label d <> TLit n) /\ (exists x, In (d_label d, sx_shape_expr, x) g) /\ poor (d_expr d)) ds.
Proof.
  intros any. unfold parse_schema, pbind at 1. destruct (single_instance ord g sx_schema f) as [[root| | |] f0] eqn:E0; try discriminate.
  pose proof (instance_inv ord g any _ _ _ _ E0) as H0. unfold pbind at 1, set_focus. unfold pbind at 1.
  destruct (single_cases ord g any sx_shapes root) as [(l & -> & I)| ->]; [|discriminate]. unfold pbind at 1, set_focus.
  unfold pmapr, pbind at 1, listed, pbind at 1. destruct (list_cases ord g any l) as [(ts & f1 & -> & R & _)|(f1 & -> & _)]; [|discriminate].
  destruct (pmap (fun t => pbind (set_focus t) (fun _ => shape_decl ord L g fuel)) ts f1) as [[ds| | |] f2] eqn:E; try discriminate.
  intro H. injection H as <-. split; [reflexivity|]. exists root, l, ts, ds. split; [exact H0|]. split; [exact I|]. split; [exact R|]. split; [reflexivity|].
  apply (pmap_each _ (fun t d => d_label d = t /\ d_abstract d = false /\ (forall n, t <> TLit n) /\ (exists x, In (t, sx_shape_expr, x) g) /\ poor (d_expr d))) in E.
  - clear -E. induction E as [|t d ts ds H E [IH1 IH2]]; [split; [reflexivity|constructor]|]. destruct H as (A & B & C & D & P). split; [cbn; congruence|].
    constructor; [rewrite A; auto|exact IH2].
  - clear -any. intros t _ f d f'. unfold pbind at 1, set_focus. unfold shape_decl, pbind at 1, get_focus. unfold pbind at 1, pres.
    destruct (shape_label t) as [lb| | |] eqn:Lb; try discriminate. assert (lb = t /\ forall n, t <> TLit n) as [-> Nl] by (destruct t; inversion Lb; split; congruence).
    unfold pbind at 1. destruct (single_cases ord g any sx_shape_expr t) as [(x & -> & I)| ->]; [|discriminate]. unfold pbind at 1, set_focus. unfold pbind at 1.
    destruct (shape_expr ord L g fuel x) as [[e| | |] f1] eqn:E; try discriminate. intro H. injection H as <- _. cbn.
    split; [reflexivity|]. split; [reflexivity|]. split; [exact Nl|]. split; [exists x; exact I|]. exact (shape_expr_poor ord L g any fuel x e f1 E).
Qed.
Print Assumptions C89_read.

(** *** What is accepted: one schema with a list of nodes that are no literals and name an expression is enough, whatever
    the expressions are. Where nothing is inside itself, such a graph is read. *)
Theorem C89_accepts ord L g root l ts : any_order ord -> rdf_graph g -> (forall t, In (t, rdf_type, TIri sx_schema) g <-> t = root) ->
  only g root sx_shapes l -> chain g l ts -> (forall t, In t ts -> exists x, In (t, sx_shape_expr, x) g) ->
  (forall fuel f, fst (parse_schema ord L g fuel f) <> Err /\ fst (parse_schema ord L g fuel f) <> Panic) /\
  (ranked g -> exists n, forall fuel f, n <= fuel -> exists s, fst (parse_schema ord L g fuel f) = Ok s).
Proof.
  intros any wf H1 O C X. pose proof (subject_of g wf root rdf_type _ (proj2 (H1 root) eq_refl)) as E.
  assert (Y : forall fuel f, fst (parse_schema ord L g fuel f) =
    match fst (pmap (fun t => pbind (set_focus t) (fun _ => shape_decl ord L g fuel)) ts (TIri rdf_nil)) with
    | Ok ds => Ok (mkSchema None (Some ds)) | Err => Err | Panic => Panic | OutOfFuel => OutOfFuel end).
  { intros fuel f. unfold parse_schema, pbind at 1. rewrite (one_instance ord g any _ root f H1).
    unfold pbind at 1, set_focus. unfold pbind at 1. rewrite (single_only ord g any root _ _ E O). unfold pbind at 1, set_focus.
    unfold pmapr, pbind at 1, listed, pbind at 1. rewrite (list_chain ord g any l ts C). unfold set_focus.
    destruct (pmap (fun t => pbind (fun _ => (Ok tt, t)) (fun _ => shape_decl ord L g fuel)) ts (TIri rdf_nil)) as [[ds| | |] f']; reflexivity. }
  assert (Z : forall t, In t ts -> exists x, forall fuel f, pbind (set_focus t) (fun _ => shape_decl ord L g fuel) f =
    pbind (shape_expr ord L g fuel) (fun e => pret (mkDecl t false e)) x).
  { intros t I. destruct (X t I) as (x & Ix). pose proof (subject_of g wf t _ x Ix) as Et. destruct (single_some ord g any sx_shape_expr t x Et Ix) as (x' & Ex).
    exists x'. intros fuel f. unfold pbind at 1, set_focus. unfold shape_decl, pbind at 1, get_focus. unfold pbind at 1, pres.
    assert (shape_label t = Ok t) as -> by (destruct t; [reflexivity|reflexivity|discriminate]). unfold pbind at 1. rewrite Ex. reflexivity. }
  split.
  - intros fuel f. rewrite Y. pose proof (pmap_not_err (fun t => pbind (set_focus t) (fun _ => shape_decl ord L g fuel)) ts) as W.
    assert (V : fst (pmap (fun t => pbind (set_focus t) (fun _ => shape_decl ord L g fuel)) ts (TIri rdf_nil)) <> Err /\
                fst (pmap (fun t => pbind (set_focus t) (fun _ => shape_decl ord L g fuel)) ts (TIri rdf_nil)) <> Panic).
    { apply W. intros t I f'. destruct (Z t I) as (x & Hx). rewrite Hx. pose proof (shape_expr_never_err ord L g any fuel x) as N. unfold pbind.
      destruct (shape_expr ord L g fuel x) as [[e| | |] f1]; cbn in *; split; try discriminate; tauto. }
    destruct (fst (pmap (fun t => pbind (set_focus t) (fun _ => shape_decl ord L g fuel)) ts (TIri rdf_nil))); split; try discriminate; tauto.
  - intros (rank & R). assert (B : exists n, forall t x, In t ts -> In (t, sx_shape_expr, x) g -> rank x < n).
    { clear -g. exists (S (list_max (map (fun q => rank (snd q)) g))). intros t x _ I. assert (K : rank x <= list_max (map (fun q => rank (snd q)) g)); [|lia].
      assert (F : Forall (fun k => k <= list_max (map (fun q => rank (snd q)) g)) (map (fun q => rank (snd q)) g)) by (apply list_max_le; reflexivity).
      rewrite Forall_forall in F. apply F. apply in_map_iff. exists (t, sx_shape_expr, x). split; [reflexivity|exact I]. }
    destruct B as (n & B). exists n. intros fuel f Fu. rewrite Y.
    destruct (pmap_some (fun t => pbind (set_focus t) (fun _ => shape_decl ord L g fuel)) (fun _ => True) ts) with (f := TIri rdf_nil) as (r & f2 & -> & _); [|eexists; reflexivity].
    intros t I f'. destruct (X t I) as (x & Ix). pose proof (subject_of g wf t _ x Ix) as Et. destruct (single_some ord g any sx_shape_expr t x Et Ix) as (x' & Ex).
    destruct (single_cases ord g any sx_shape_expr t) as [(x2 & Ex2 & Ix2)|Ex2]; rewrite Ex in Ex2; [|discriminate]. injection Ex2 as <-.
    destruct (shape_expr_ends ord L g any rank R fuel x') as (e & f1 & Ee); [specialize (B t x' I Ix2); lia|].
    exists (mkDecl t false e), f1. split; [|exact Logic.I]. unfold pbind at 1, set_focus. unfold shape_decl, pbind at 1, get_focus. unfold pbind at 1, pres.
    assert (shape_label t = Ok t) as -> by (destruct t; [reflexivity|reflexivity|discriminate]). unfold pbind at 1. rewrite Ex. unfold pbind at 1, set_focus. unfold pbind at 1. rewrite Ee. reflexivity.
Qed.
Print Assumptions C89_accepts.

(** *** Examples. Whether a concrete graph says something is computed. *)
Definition at_ (s : term) (p : N) (t : term * N * term) : bool := term_eqb (fst (fst t)) s && N.eqb (snd (fst t)) p.
Lemma at_spec s p t : at_ s p t = true <-> exists o, t = (s, p, o).
Proof.
  destruct t as [[a b] c]. unfold at_. cbn. rewrite andb_true_iff, term_eqb_iff, N.eqb_eq. split; [intros [-> ->]; eexists; reflexivity|intros (o & E); injection E as -> -> _; auto].
Qed.
Definition only_b (g : graph) (s : term) (p : N) (o : term) : bool :=
  forallb (fun t => implb (at_ s p t) (term_eqb (snd t) o)) g && existsb (at_ s p) g.
Lemma only_by g s p o : only_b g s p o = true -> only g s p o.
Proof.
  unfold only_b. rewrite andb_true_iff, forallb_forall, existsb_exists. intros [A (t & I & T)].
  assert (F : forall x, In (s, p, x) g -> x = o).
  { intros x K. specialize (A _ K). rewrite (proj2 (at_spec s p (s, p, x))) in A by (eexists; reflexivity). cbn in A. apply term_eqb_iff in A. exact A. }
  intro x. split; [apply F|]. intros ->. apply at_spec in T. destruct T as (y & ->). rewrite <- (F y I) at 1. exact I.
Qed.
Definition none_b (g : graph) (s : term) (p : N) : bool := forallb (fun t => negb (at_ s p t)) g.
Lemma none_by g s p : none_b g s p = true -> none g s p.
Proof.
  unfold none_b. rewrite forallb_forall. intros A x K. specialize (A _ K). rewrite (proj2 (at_spec s p (s, p, x))) in A by (eexists; reflexivity). discriminate.
Qed.
Definition tidy_b (g : graph) : bool :=
  forallb (fun t => implb (N.eqb (snd (fst t)) sx_node_kind || N.eqb (snd (fst t)) sx_values)
    (forallb (fun q => implb (at_ (fst (fst t)) rdf_type q) (term_eqb (snd q) (TIri sx_node_constraint))) g)) g &&
  forallb (fun k => none_b g (TIri (kind_iri k)) sx_values) [KIri; KBNode; KNonLiteral; KLiteral].
Lemma tidy_by g : tidy_b g = true -> tidy g.
Proof.
  unfold tidy_b. rewrite andb_true_iff, !forallb_forall. intros [A B]. split.
  - assert (X : forall p, p = sx_node_kind \/ p = sx_values -> forall s c, typed g s c -> c <> sx_node_constraint -> none g s p).
    { intros p P s c T N x I. specialize (A _ I). cbn [fst snd] in A. assert (N.eqb p sx_node_kind || N.eqb p sx_values = true) as Q by (apply orb_true_iff; rewrite !N.eqb_eq; exact P).
      rewrite Q in A. cbn [implb] in A. rewrite forallb_forall in A. specialize (A _ (proj2 (T _) eq_refl)). rewrite (proj2 (at_spec s rdf_type _)) in A by (eexists; reflexivity).
      cbn in A. apply N.eqb_eq in A. congruence. }
    intros s c T N. split; [exact (X _ (or_introl eq_refl) s c T N)|exact (X _ (or_intror eq_refl) s c T N)].
  - intro k. apply none_by. apply B. destruct k; cbn; tauto.
Qed.
Definition rdf_b (g : graph) : bool := forallb (fun t => match fst (fst t) with TLit _ => false | _ => true end) g.
Lemma rdf_by g : rdf_b g = true -> rdf_graph g.
Proof. unfold rdf_b. rewrite forallb_forall. intros A s p o I. specialize (A _ I). cbn in A. destruct s; [exact Logic.I|exact Logic.I|discriminate]. Qed.
Ltac one := apply only_by; reflexivity.
Ltac no := apply none_by; reflexivity.

(** the literal 7 is true *)
Definition bools : lits := mkLits (fun n => Some n) (fun _ => None) (fun n => if N.eqb n 7 then Some true else None) (fun n => n) (fun _ => None) (fun _ => None).
(** a schema with one declaration, of the node [i 200], whose expression is the blank node 2 *)
Definition i (n : N) : term := TIri n.
Definition b (n : N) : term := TBnode n.
Definition with_schema (g : graph) : graph :=
  [(b 0, rdf_type, i sx_schema); (b 0, sx_shapes, b 1); (b 1, rdf_first, i 200); (b 1, rdf_rest, i rdf_nil);
   (i 200, rdf_type, i sx_shape_decl); (i 200, sx_shape_expr, b 2)] ++ g.
Definition one_decl (e : sexpr) : schema := mkSchema None (Some [mkDecl (i 200) false e]).
Definition root_b (g : graph) (root : term) : bool :=
  forallb (fun t => implb (N.eqb (snd (fst t)) rdf_type && term_eqb (snd t) (i sx_schema)) (term_eqb (fst (fst t)) root)) g && only_b g root rdf_type (i sx_schema).
Lemma root_by g root : root_b g root = true -> forall t, In (t, rdf_type, TIri sx_schema) g <-> t = root.
Proof.
  unfold root_b. rewrite andb_true_iff, forallb_forall. intros [A B] t. apply only_by in B. split; [|intros ->; apply B; reflexivity].
  intro I. specialize (A _ I). cbn in A. apply term_eqb_iff in A. exact A.
Qed.
Lemma with_schema_describes L g e : root_b (with_schema g) (b 0) = true -> none_b (with_schema g) (b 0) sx_start = true ->
  only_b (with_schema g) (b 0) sx_shapes (b 1) = true -> only_b (with_schema g) (b 1) rdf_first (i 200) = true -> only_b (with_schema g) (b 1) rdf_rest (i rdf_nil) = true ->
  none_b (with_schema g) (i 200) sx_abstract = true -> only_b (with_schema g) (i 200) sx_shape_expr (b 2) = true ->
  denotes L (with_schema g) (b 2) e -> describes L (with_schema g) (b 0) (one_decl e).
Proof.
  intros A B C D E F G H. split; [exact (root_by _ _ A)|]. split; [exact (none_by _ _ _ B)|]. cbn [one_decl s_shapes maybe].
  exists (b 1). split; [exact (only_by _ _ _ _ C)|]. exists [i 200]. split.
  - apply chain_cons with (r := i rdf_nil); [discriminate|reflexivity|exact (only_by _ _ _ _ D)|exact (only_by _ _ _ _ E)|constructor].
  - constructor; [|constructor]. split; [reflexivity|]. split; [discriminate|]. split; [left; split; [exact (none_by _ _ _ F)|reflexivity]|].
    exists (b 2). split; [exact (only_by _ _ _ _ G)|exact H].
Qed.
(** no facets *)
Definition facetless_b (g : graph) : bool := forallb (fun t => negb (existsb (N.eqb (snd (fst t))) sx_facets)) g.
Lemma facetless_by g s : facetless_b g = true -> (forall p t, In p sx_facets -> (In (s, p, t) g <-> In (p, t) [])) /\ (forall (p : N) (t : term), In (p, t) [] -> In p sx_facets).
Proof.
  unfold facetless_b. rewrite forallb_forall. intro A. split; [|intros p t []]. intros p t P. split; [|intros []]. intro I. specialize (A _ I). cbn [fst snd] in A.
  apply negb_true_iff in A. assert (existsb (N.eqb p) sx_facets = true) as Q by (apply existsb_exists; exists p; split; [exact P|apply N.eqb_refl]). congruence.
Qed.

(** the conjunction of a closed shape and of two IRIs *)
Definition both : graph := with_schema
  [(b 2, rdf_type, i sx_shape_and); (b 2, sx_shape_exprs, b 3); (b 3, rdf_first, b 4); (b 3, rdf_rest, b 5); (b 5, rdf_first, b 6); (b 5, rdf_rest, i rdf_nil);
   (b 4, rdf_type, i sx_shape); (b 4, sx_closed, TLit 7); (b 6, rdf_type, i sx_node_constraint); (b 6, sx_values, b 7);
   (b 7, rdf_first, i 300); (b 7, rdf_rest, b 8); (b 8, rdf_first, i 301); (b 8, rdf_rest, i rdf_nil)].
Definition both_expr : sexpr := SAnd [SShape (Some true) None None; SNode (mkNC None None [] (Some [i 300; i 301]))].
Lemma both_denotes : denotes bools both (b 2) both_expr.
Proof.
  apply (de_and bools both (b 2) (b 3) [b 4; b 6]); [one|one| |].
  - apply chain_cons with (r := b 5); [discriminate|reflexivity|one|one|]. apply chain_cons with (r := i rdf_nil); [discriminate|reflexivity|one|one|constructor].
  - constructor; [|constructor; [|constructor]].
    + apply de_shape; [one|exists (TLit 7); split; [one|exists 7%N; split; reflexivity]|no|no].
    + apply de_node; [one|no|no|apply facetless_by; reflexivity|intros p t []|]. exists (b 7). split; [one|].
      apply chain_cons with (r := b 8); [discriminate|reflexivity|one|one|]. apply chain_cons with (r := i rdf_nil); [discriminate|reflexivity|one|one|constructor].
Qed.
Example C89_met : rdf_graph both /\ tidy both /\ describes bools both (b 0) (one_decl both_expr) /\ simple_schema (one_decl both_expr) /\
  fst (parse_schema (fun l => l) bools both 3 (b 99)) = Ok (one_decl both_expr).
Proof.
  split; [apply rdf_by; reflexivity|]. split; [apply tidy_by; reflexivity|]. split; [apply with_schema_describes; try reflexivity; exact both_denotes|]. split.
  - split; [reflexivity|]. eexists. split; [reflexivity|]. constructor; [|constructor]. split; [reflexivity|]. constructor. constructor; [constructor|]. constructor; [|constructor].
    exact (si_values [300; 301]%N).
  - vm_compute. reflexivity.
Qed.
(** and nothing in it is inside itself *)
Example C89_met_accepts : ranked both /\ only both (b 0) sx_shapes (b 1) /\ chain both (b 1) [i 200] /\ In (i 200, sx_shape_expr, b 2) both.
Proof.
  split; [|split; [one|split; [|cbn; tauto]]].
  - exists (fun t => if term_eqb t (b 2) then 1 else 0). intros s t (l & c & I & C & H).
    assert (s = b 2 /\ l = b 3) as [-> ->].
    { cbn in I. repeat (destruct I as [I|I]; [first [discriminate I|injection I as <- <-; split; reflexivity]|]). destruct I. }
    assert (c = b 3 \/ c = b 5 \/ c = i rdf_nil) as Hc.
    { clear H I. induction C as [|c r C IH J]; [auto|]. cbn in J.
      repeat (destruct J as [J|J]; [first [discriminate J|injection J as <- <-; first [tauto|destruct IH as [IH|[IH|IH]]; discriminate IH]]|]). destruct J. }
    assert (t <> b 2) as N.
    { intros ->. destruct H as [H|H]; [subst c; destruct Hc as [Hc|[Hc|Hc]]; discriminate Hc|].
      cbn in H. repeat (destruct H as [H|H]; [discriminate H|]). destruct H. }
    destruct (term_eqb_spec t (b 2)) as [->|_]; [congruence|]. cbn. lia.
  - apply chain_cons with (r := i rdf_nil); [discriminate|reflexivity|one|one|constructor].
Qed.

(** *** A shape with a triple expression is never read, in whatever order and however long. *)
Definition with_expression : graph := with_schema [(b 2, rdf_type, i sx_shape); (b 2, sx_expression, b 3)].
Theorem C89_schema_refuted : exists L g root s, rdf_graph g /\ tidy g /\ describes L g root s /\
  forall ord fuel f, any_order ord -> fst (parse_schema ord L g fuel f) <> Ok s.
Proof.
  exists bools, with_expression, (b 0), (one_decl (SShape None None (Some (b 3)))).
  split; [apply rdf_by; reflexivity|]. split; [apply tidy_by; reflexivity|]. split.
  - apply with_schema_describes; try reflexivity. apply de_shape; [one|no|no|exists (b 3); split; [one|reflexivity]].
  - intros ord fuel f any H. destruct (C89_read ord bools with_expression fuel f _ any H) as (_ & _ & _ & _ & ds & _ & _ & _ & E & _ & F). injection E as <-.
    inversion F as [|d ds (_ & _ & _ & P) _]; subst. inversion P.
Qed.
Print Assumptions C89_schema_refuted.

(** *** The negation of an expression is read as an expression that every node satisfies. *)
Definition negated : graph := with_schema [(b 2, rdf_type, i sx_shape_not); (b 2, sx_shape_expr, b 3); (b 3, rdf_type, i sx_node_constraint); (b 3, sx_node_kind, i sx_iri)].
Theorem C89_negation_refuted : exists L g root e, rdf_graph g /\ tidy g /\ describes L g root (one_decl (SNot e)) /\
  forall ord, any_order ord -> exists n, forall fuel f, n <= fuel -> fst (parse_schema ord L g fuel f) = Ok (one_decl nothing).
Proof.
  exists bools, negated, (b 0), (SNode (mkNC (Some KIri) None [] None)).
  assert (A : rdf_graph negated) by (apply rdf_by; reflexivity). assert (B : tidy negated) by (apply tidy_by; reflexivity).
  assert (C : describes bools negated (b 0) (one_decl (SNot (SNode (mkNC (Some KIri) None [] None))))).
  { apply with_schema_describes; try reflexivity. apply (de_not bools _ (b 2) (b 3)); [one|one|].
    apply de_node; [one|exists (i sx_iri); split; [one|reflexivity]|no|apply facetless_by; reflexivity|intros p t []|no]. }
  split; [exact A|]. split; [exact B|]. split; [exact C|]. intros ord any. exact (C89_reads ord bools negated (b 0) _ any A B C).
Qed.
Print Assumptions C89_negation_refuted.

(** *** Of a kind and values the values are lost: the focus stays on the kind. *)
Definition kind_and_values : graph := with_schema
  [(b 2, rdf_type, i sx_node_constraint); (b 2, sx_node_kind, i sx_iri); (b 2, sx_values, b 3); (b 3, rdf_first, i 300); (b 3, rdf_rest, i rdf_nil)].
Theorem C89_values_refuted : exists L g root k v, rdf_graph g /\ tidy g /\ describes L g root (one_decl (SNode (mkNC (Some k) None [] (Some v)))) /\ v <> [] /\
  forall ord, any_order ord -> exists n, forall fuel f, n <= fuel -> fst (parse_schema ord L g fuel f) = Ok (one_decl (SNode (mkNC (Some k) None [] None))).
Proof.
  exists bools, kind_and_values, (b 0), KIri, [i 300].
  assert (A : rdf_graph kind_and_values) by (apply rdf_by; reflexivity). assert (B : tidy kind_and_values) by (apply tidy_by; reflexivity).
  assert (C : describes bools kind_and_values (b 0) (one_decl (SNode (mkNC (Some KIri) None [] (Some [i 300]))))).
  { apply with_schema_describes; try reflexivity.
    apply de_node; [one|exists (i sx_iri); split; [one|reflexivity]|no|apply facetless_by; reflexivity|intros p t []|].
    exists (b 3). split; [one|]. apply chain_cons with (r := i rdf_nil); [discriminate|reflexivity|one|one|constructor]. }
  split; [exact A|]. split; [exact B|]. split; [exact C|]. split; [discriminate|]. intros ord any. exact (C89_reads ord bools kind_and_values (b 0) _ any A B C).
Qed.
Print Assumptions C89_values_refuted.

(** *** The kind sx:nonliteral of the vocabulary is unknown: the code has another name. *)
Definition non_literals (k : N) : graph := with_schema [(b 2, rdf_type, i sx_node_constraint); (b 2, sx_node_kind, i k)].
Theorem C89_nonliteral_refuted : exists L g root, rdf_graph g /\ tidy g /\ describes L g root (one_decl (SNode (mkNC (Some KNonLiteral) None [] None))) /\
  forall ord, any_order ord -> exists n, forall fuel f, n <= fuel -> fst (parse_schema ord L g fuel f) = Ok (one_decl nothing).
Proof.
  exists bools, (non_literals sx_nonliteral), (b 0).
  assert (A : rdf_graph (non_literals sx_nonliteral)) by (apply rdf_by; reflexivity). assert (B : tidy (non_literals sx_nonliteral)) by (apply tidy_by; reflexivity).
  assert (C : describes bools (non_literals sx_nonliteral) (b 0) (one_decl (SNode (mkNC (Some KNonLiteral) None [] None)))).
  { apply with_schema_describes; try reflexivity.
    apply de_node; [one|exists (i sx_nonliteral); split; [one|reflexivity]|no|apply facetless_by; reflexivity|intros p t []|no]. }
  split; [exact A|]. split; [exact B|]. split; [exact C|]. intros ord any. exact (C89_reads ord bools (non_literals sx_nonliteral) (b 0) _ any A B C).
Qed.
Print Assumptions C89_nonliteral_refuted.
(** the name of the code is read *)
Example C89_kinds : map (fun k => fst (parse_schema (fun l => l) bools (non_literals k) 1 (b 99))) [sx_iri; sx_bnode; sx_literal; sx_non_literal; sx_nonliteral] =
  map (fun k => Ok (one_decl (SNode (mkNC k None [] None)))) [Some KIri; Some KBNode; Some KLiteral; Some KNonLiteral; None].
Proof. vm_compute. reflexivity. Qed.

(** *** A conjunction inside itself is read for ever. *)
Definition inside : graph := with_schema [(b 2, rdf_type, i sx_shape_and); (b 2, sx_shape_exprs, b 3); (b 3, rdf_first, b 2); (b 3, rdf_rest, i rdf_nil)].
Theorem C89_ends_refuted : exists g, rdf_graph g /\ tidy g /\ forall ord L fuel f, any_order ord -> fst (parse_schema ord L g fuel f) = OutOfFuel.
Proof.
  exists inside. assert (wf : rdf_graph inside) by (apply rdf_by; reflexivity). split; [exact wf|]. split; [apply tidy_by; reflexivity|].
  intros ord L fuel f any.
  assert (N : forall fuel, exists f', shape_expr ord L inside fuel (b 2) = (OutOfFuel, f')).
  { clear fuel f. induction fuel as [|fuel (f' & IH)]; [eexists; reflexivity|]. exists f'. rewrite shape_expr_S. unfold porelse. unfold several at 1, pbind at 1.
    rewrite (has_type_yes ord inside any (b 2) sx_shape_and eq_refl) by one. unfold pbind at 1.
    rewrite (single_only ord inside any (b 2) sx_shape_exprs (b 3) eq_refl) by one. unfold pbind at 1, set_focus. unfold pmapr at 1, pbind at 1, listed at 1, pbind at 1.
    rewrite (list_chain ord inside any (b 3) [b 2]) by (apply chain_cons with (r := i rdf_nil); [discriminate|reflexivity|one|one|constructor]).
    cbn [pmap]. unfold pbind at 1. unfold pbind at 1, set_focus. rewrite IH. reflexivity. }
  destruct (N fuel) as (f' & E). unfold parse_schema, pbind at 1. rewrite (one_instance ord inside any _ (b 0) f) by (apply root_by; reflexivity).
  unfold pbind at 1, set_focus. unfold pbind at 1. rewrite (single_only ord inside any (b 0) sx_shapes (b 1) eq_refl) by one. unfold pbind at 1, set_focus.
  unfold pmapr, pbind at 1, listed, pbind at 1. rewrite (list_chain ord inside any (b 1) [i 200]) by (apply chain_cons with (r := i rdf_nil); [discriminate|reflexivity|one|one|constructor]).
  cbn [pmap]. unfold pbind at 1. unfold pbind at 1, set_focus. unfold shape_decl, pbind at 1, get_focus. unfold pbind at 1, pres. cbn [shape_label i].
  unfold pbind at 1. change (TIri 200) with (i 200). rewrite (single_only ord inside any (i 200) sx_shape_expr (b 2) eq_refl) by one. unfold pbind at 1, set_focus. unfold pbind at 1. rewrite E. reflexivity.
Qed.
Print Assumptions C89_ends_refuted.

(** *** Of a node with two types one is picked, so what is read depends on the order of a set. *)
Definition two_types : graph := with_schema [(b 2, rdf_type, i sx_shape); (b 2, rdf_type, i sx_node_constraint); (b 2, sx_node_kind, i sx_iri)].
Theorem C89_order_refuted : exists L g ord ord' fuel f s s', rdf_graph g /\ any_order ord /\ any_order ord' /\
  fst (parse_schema ord L g fuel f) = Ok s /\ fst (parse_schema ord' L g fuel f) = Ok s' /\ s <> s'.
Proof.
  exists bools, two_types, (@rev term), (fun l => l), 1, (b 99), (one_decl (SShape None None None)), (one_decl (SNode (mkNC (Some KIri) None [] None))).
  split; [apply rdf_by; reflexivity|]. split; [intro l; symmetry; apply Permutation_rev|]. split; [intro l; reflexivity|].
  split; [vm_compute; reflexivity|]. split; [vm_compute; reflexivity|discriminate].
Qed.
Print Assumptions C89_order_refuted.

(** *** A conjunction whose list is broken is no error: what is read is what the cell where it breaks off says. *)
Definition broken : graph := with_schema
  [(b 2, rdf_type, i sx_shape_and); (b 2, sx_shape_exprs, b 3); (b 3, rdf_first, b 4); (b 3, rdf_rest, b 5); (b 5, sx_node_kind, i sx_iri); (b 4, rdf_type, i sx_shape)].
Theorem C89_broken_refuted : exists L g root l s, rdf_graph g /\ typed g root sx_shape_and /\ only g root sx_shape_exprs l /\ (forall ts, ~ rdf_list g l ts) /\
  (exists ord, any_order ord /\ fst (parse_schema ord L g 2 root) = Ok s) /\ In (i 200, sx_shape_expr, root) g.
Proof.
  exists bools, broken, (b 2), (b 3), (one_decl (SNode (mkNC (Some KIri) None [] None))).
  split; [apply rdf_by; reflexivity|]. split; [one|]. split; [one|]. split.
  - intros ts H. inversion H as [|n x r k A B C]; subst. assert (r = b 5) as ->.
    { cbn in B. repeat (destruct B as [B|B]; [first [discriminate B|injection B as <-; reflexivity]|]). destruct B. }
    inversion C as [|n x' r' k' A' B' C']; subst. cbn in A'. repeat (destruct A' as [A'|A']; [discriminate A'|]). destruct A'.
  - split; [|cbn; tauto]. exists (fun l => l). split; [intro l; reflexivity|vm_compute; reflexivity].
Qed.
Print Assumptions C89_broken_refuted.

(** what is no boolean says nothing about being closed; two schemas are none *)
Example C89_closed : fst (parse_schema (fun l => l) bools (with_schema [(b 2, rdf_type, i sx_shape); (b 2, sx_closed, TLit 8)]) 1 (b 99)) = Ok (one_decl (SShape None None None)).
Proof. vm_compute. reflexivity. Qed.
Example C89_two : fst (parse_schema (fun l => l) bools ((b 90, rdf_type, i sx_schema) :: both) 9 (b 99)) = Err.
Proof. vm_compute. reflexivity. Qed.
Example C89_literal_label : fst (parse_schema (fun l => l) bools
  [(b 0, rdf_type, i sx_schema); (b 0, sx_shapes, b 1); (b 1, rdf_first, TLit 1); (b 1, rdf_rest, i rdf_nil)] 9 (b 99)) = Err.
Proof. vm_compute. reflexivity. Qed.
