(** Lemmas about reading ShExR. *)
From Coq Require Import List Bool NArith Lia Permutation.
Import ListNotations.
From Verif Require Import PathModel PathSpec PathLemmas ReportModel ReportSpec ReportLemmas RdsModel ShrModel ShrSpec.

Fixpoint sexpr_ind' (P : sexpr -> Prop)
  (Hand : forall l, Forall P l -> P (SAnd l)) (Hor : forall l, Forall P l -> P (SOr l)) (Hnot : forall e, P e -> P (SNot e))
  (Hnode : forall n, P (SNode n)) (Hshape : forall c x e, P (SShape c x e)) (Hext : P SExternal) (Href : forall t, P (SRef t)) (e : sexpr) : P e :=
  let all := fix all (l : list sexpr) : Forall P l :=
    match l with [] => Forall_nil P | x :: l => Forall_cons x (sexpr_ind' P Hand Hor Hnot Hnode Hshape Hext Href x) (all l) end in
  match e with
  | SAnd l => Hand l (all l)
  | SOr l => Hor l (all l)
  | SNot e => Hnot e (sexpr_ind' P Hand Hor Hnot Hnode Hshape Hext Href e)
  | SNode n => Hnode n
  | SShape c x t => Hshape c x t
  | SExternal => Hext
  | SRef t => Href t
  end.

(** a chain is no longer than the graph *)
Lemma chain_short g n l : chain g n l -> length l <= length g.
Proof.
  intro C. assert (X : exists qs, length qs = length l /\ NoDup qs /\ incl qs g /\ forall q, In q qs -> exists k, chain g (fst (fst q)) k /\ length k <= length l).
  { induction C as [|n x r l N E F R C IH].
    - exists []. repeat split; [constructor|intros q []|intros q []].
    - destruct IH as (qs & A & B & D & H). exists ((n, rdf_rest, r) :: qs). split; [cbn; congruence|]. split; [|split].
      + constructor; [|exact B]. intro I. destruct (H _ I) as (k & Ck & Lk). cbn in Ck.
        assert (Cn : chain g n (x :: l)) by (econstructor; eassumption). rewrite (chain_det g _ _ Ck _ Cn) in Lk. cbn in Lk. lia.
      + intros q [<-|I]; [apply R; reflexivity|apply D; exact I].
      + intros q [<-|I]; [exists (x :: l); split; [econstructor; eassumption|reflexivity]|].
        destruct (H q I) as (k & Ck & Lk). exists k. split; [exact Ck|cbn; lia]. }
  destruct X as (qs & A & B & D & _). rewrite <- A. exact (NoDup_incl_length B D).
Qed.

Section Read.
  Variable ord : list term -> list term.
  Variable L : lits.
  Variable g : graph.
  Hypothesis any : any_order ord.

  Lemma ord_in' l x : In x (ord l) <-> In x l.
  Proof. split; apply Permutation_in; [|symmetry]; apply any. Qed.
  Lemma single_no s p : none g s p -> single_value ord g p s = (Err, s).
  Proof.
    intro H. unfold single_value. destruct (objects_for g s p) as [l| | |] eqn:E; try reflexivity.
    assert (l = []) as ->. { destruct l as [|a l]; [reflexivity|]. destruct (H a). apply (proj1 (proj1 (objects_for_in g s p _ a E))). left. reflexivity. }
    rewrite (ord_none _ any). reflexivity.
  Qed.
  Lemma single_cases p f : (exists t, single_value ord g p f = (Ok t, f) /\ In (f, p, t) g) \/ single_value ord g p f = (Err, f).
  Proof.
    unfold single_value. destruct (objects_for g f p) as [l| | |] eqn:E; auto. destruct (ord l) as [|t m] eqn:O; auto.
    left. exists t. split; [reflexivity|]. apply (proj1 (objects_for_in g f p l t E)). apply ord_in'. rewrite O. left. reflexivity.
  Qed.
  Lemma single_some p f t : term_as_subject f = Some f -> In (f, p, t) g -> exists t', single_value ord g p f = (Ok t', f).
  Proof.
    intros E I. destruct (single_cases p f) as [(t' & H & _)|H]; [exists t'; exact H|]. exfalso.
    unfold single_value in H. destruct (objects_for_ok g f p E) as (l & Hl). rewrite Hl in H.
    assert (In t (ord l)) as K by (apply ord_in'; apply (proj1 (objects_for_in g f p l t Hl)); exact I). destruct (ord l); [destruct K|discriminate].
  Qed.

  (** lists *)
  Lemma parse_list_cells f0 fuel : forall visited f, cell g f0 f ->
    match parse_list ord g fuel visited f with
    | (Ok l, _) => rdf_list g f l /\ forall x, In x l -> exists c, cell g f0 c /\ In (c, rdf_first, x) g
    | (Err, f') => cell g f0 f'
    | (Panic, _) => False
    | (OutOfFuel, _) => True
    end.
  Proof.
    induction fuel as [|fuel IH]; intros visited f C; cbn [parse_list]; [exact Logic.I|].
    unfold pbind at 1, get_focus. destruct (term_eqb_spec f (TIri rdf_nil)) as [->|N]; [cbn; split; [constructor|intros x []]|].
    unfold pbind at 1. destruct (single_cases rdf_first f) as [(x & -> & I1)| ->]; [|exact C].
    unfold pbind at 1. destruct (single_cases rdf_rest f) as [(r & -> & I2)| ->]; [|exact C].
    destruct (tmem r visited); [exact C|]. unfold pbind at 1, set_focus. unfold pbind.
    specialize (IH (visited ++ [r]) r (cell_next g f0 f r C I2)). destruct (parse_list ord g fuel (visited ++ [r]) r) as [[l| | |] f']; try exact IH.
    destruct IH as [IH1 IH2]. unfold pret. split; [econstructor; eassumption|]. intros y [<-|K]; [exists f; auto|apply IH2; exact K].
  Qed.
  Lemma list_cases f :
    (exists l f', list_parser ord g (S (length g)) f = (Ok l, f') /\ rdf_list g f l /\ forall x, In x l -> exists c, cell g f c /\ In (c, rdf_first, x) g) \/
    (exists f', list_parser ord g (S (length g)) f = (Err, f') /\ cell g f f').
  Proof.
    assert (E : fst (list_parser ord g (S (length g)) f) <> OutOfFuel).
    { unfold list_parser, pbind, get_focus. apply parse_list_ends; [exact any|constructor; [intros []|constructor]|intros x []|cbn; lia|discriminate]. }
    pose proof (parse_list_cells f (S (length g)) [f] f (cell_first g f)) as H.
    change (parse_list ord g (S (length g)) [f] f) with (list_parser ord g (S (length g)) f) in H.
    destruct (list_parser ord g (S (length g)) f) as [[l| | |] f']; [left; exists l, f'; tauto|right; exists f'; auto|contradiction|cbn in E; congruence].
  Qed.
  Lemma list_chain n l : chain g n l -> list_parser ord g (S (length g)) n = (Ok l, TIri rdf_nil).
  Proof. intro C. apply list_parser_chain; [exact any|exact C|]. pose proof (chain_short g n l C). lia. Qed.

  (** a list of things each of which is read *)
  Lemma pmap_ok {A B} (k : A -> parser B) (h : A -> B) l : (forall x, In x l -> forall f, exists f', k x f = (Ok (h x), f')) ->
    forall f, exists f', pmap k l f = (Ok (map h l), f').
  Proof.
    induction l as [|x l IH]; intros H f; [exists f; reflexivity|]. cbn [pmap map].
    destruct (H x (or_introl eq_refl) f) as (f1 & E1). destruct (IH (fun y I => H y (or_intror I)) f1) as (f2 & E2).
    exists f2. unfold pbind. rewrite E1, E2. reflexivity.
  Qed.
  Lemma pmap_ok2 {A B} (k : A -> parser B) l r : Forall2 (fun x y => forall f, exists f', k x f = (Ok y, f')) l r ->
    forall f, exists f', pmap k l f = (Ok r, f').
  Proof.
    intro H. induction H as [|x y l r H1 H2 IH]; intro f; [exists f; reflexivity|]. cbn [pmap].
    destruct (H1 f) as (f1 & E1). destruct (IH f1) as (f2 & E2). exists f2. unfold pbind. rewrite E1, E2. reflexivity.
  Qed.
  (** whatever happens *)
  Lemma pmap_some {A B} (k : A -> parser B) (P : B -> Prop) l : (forall x, In x l -> forall f, exists y f', k x f = (Ok y, f') /\ P y) ->
    forall f, exists r f', pmap k l f = (Ok r, f') /\ Forall P r.
  Proof.
    induction l as [|x l IH]; intros H f; [exists [], f; split; [reflexivity|constructor]|]. cbn [pmap].
    destruct (H x (or_introl eq_refl) f) as (y & f1 & E1 & P1). destruct (IH (fun z I => H z (or_intror I)) f1) as (r & f2 & E2 & P2).
    exists (y :: r), f2. unfold pbind. rewrite E1, E2. split; [reflexivity|constructor; assumption].
  Qed.
  Lemma pmap_not_err {A B} (k : A -> parser B) l : (forall x, In x l -> forall f, fst (k x f) <> Err /\ fst (k x f) <> Panic) ->
    forall f, fst (pmap k l f) <> Err /\ fst (pmap k l f) <> Panic.
  Proof.
    induction l as [|x l IH]; intros H f; [cbn; split; discriminate|]. cbn [pmap]. unfold pbind.
    pose proof (H x (or_introl eq_refl) f) as H1. destruct (k x f) as [[y| | |] f1]; cbn in H1; try tauto; [|cbn; split; discriminate].
    pose proof (IH (fun z I => H z (or_intror I)) f1) as H2. destruct (pmap k l f1) as [[r| | |] f2]; cbn in H2; try tauto; cbn; split; discriminate.
  Qed.
  Lemma pmap_each {A B} (k : A -> parser B) (P : A -> B -> Prop) l : (forall x, In x l -> forall f y f', k x f = (Ok y, f') -> P x y) ->
    forall f r f', pmap k l f = (Ok r, f') -> Forall2 P l r.
  Proof.
    induction l as [|x l IH]; intros H f r f' E; cbn [pmap] in E; [injection E as <- _; constructor|]. unfold pbind in E.
    destruct (k x f) as [[y| | |] f1] eqn:E1; try discriminate. destruct (pmap k l f1) as [[r'| | |] f2] eqn:E2; try discriminate. injection E as <- _.
    constructor; [exact (H x (or_introl eq_refl) _ _ _ E1)|]. exact (IH (fun z I => H z (or_intror I)) _ _ _ E2).
  Qed.

  (** types *)
  Lemma has_type_yes s c : term_as_subject s = Some s -> typed g s c -> has_type ord g c s = (Ok tt, s).
  Proof. intros E T. unfold has_type, pbind. rewrite (single_only ord g any s rdf_type _ E T). rewrite (proj2 (term_eqb_iff _ _) eq_refl). reflexivity. Qed.
  Lemma has_type_no s c c' : term_as_subject s = Some s -> typed g s c -> c <> c' -> has_type ord g c' s = (Err, s).
  Proof.
    intros E T N. unfold has_type, pbind. rewrite (single_only ord g any s rdf_type _ E T).
    destruct (term_eqb_spec (TIri c) (TIri c')) as [K|_]; [congruence|reflexivity].
  Qed.
  Lemma has_type_cases c f : has_type ord g c f = (Ok tt, f) \/ has_type ord g c f = (Err, f).
  Proof. unfold has_type, pbind. destruct (single_cases rdf_type f) as [(t & -> & _)| ->]; [destruct (term_eqb t (TIri c))|]; auto. Qed.

  (** node constraints *)
  Lemma nodekind_cases t : (exists k, nodekind t = (Ok k, t)) \/ nodekind t = (Err, t).
  Proof.
    unfold nodekind, porelse, pmapr, is_iri, pbind, get_focus. destruct t as [i|b|n]; cbn; auto.
    destruct (N.eqb i sx_iri); [left; eexists; reflexivity|]; cbn. destruct (N.eqb i sx_literal); [left; eexists; reflexivity|]; cbn.
    destruct (N.eqb i sx_bnode); [left; eexists; reflexivity|]; cbn. destruct (N.eqb i sx_non_literal); [left; eexists; reflexivity|right; reflexivity].
  Qed.
  Lemma values_here l : (exists is f', listed ord g (pmapr iri_here TIri) l = (Ok (map TIri is), f')) \/ (exists f', listed ord g (pmapr iri_here TIri) l = (Err, f')).
  Proof.
    assert (X : forall ts f, (exists is f', pmap (fun t => pbind (set_focus t) (fun _ => pmapr iri_here TIri)) ts f = (Ok (map TIri is), f')) \/
      (exists f', pmap (fun t => pbind (set_focus t) (fun _ => pmapr iri_here TIri)) ts f = (Err, f'))).
    { induction ts as [|t ts IH]; intro f; [left; exists [], f; reflexivity|]. destruct t as [i|b|n]; [|right; eexists; reflexivity|right; eexists; reflexivity].
      destruct (IH (TIri i)) as [(is & f2 & E)|(f2 & E)]; [left; exists (i :: is), f2|right; exists f2];
        cbn [pmap]; unfold pbind at 1; change (pbind (set_focus (TIri i)) (fun _ => pmapr iri_here TIri) f) with (@Ok term (TIri i), TIri i); unfold pbind at 1; cbv iota beta; rewrite E; reflexivity. }
    unfold listed. unfold pbind at 1 3. destruct (list_cases l) as [(ts & f' & -> & _)|(f' & -> & _)]; [apply X|right; eexists; reflexivity].
  Qed.
  Lemma values_chain l ts : chain g l ts -> exists f', listed ord g (pmapr iri_here TIri) l = ((if only_iris ts then Ok ts else Err), f').
  Proof.
    intro C. unfold listed, pbind at 1. rewrite (list_chain l ts C). generalize (TIri rdf_nil). clear C l.
    induction ts as [|t ts IH]; intro f; [exists f; reflexivity|]. cbn [pmap only_iris forallb].
    destruct t as [i|b|n]; cbn [andb]; [|eexists; reflexivity|eexists; reflexivity].
    unfold pbind at 1. change (pbind (set_focus (TIri i)) (fun _ => pmapr iri_here TIri) f) with (@Ok term (TIri i), TIri i). unfold pbind at 1. cbv iota beta.
    destruct (IH (TIri i)) as (f2 & E). rewrite E.
    change (forallb (fun t => match t with TIri _ => true | _ => false end) ts) with (only_iris ts). destruct (only_iris ts); eexists; reflexivity.
  Qed.
  Lemma parse_values_cases f : (exists is f', parse_values ord g f = (Ok (Some (map TIri is)), f')) \/ (exists f', parse_values ord g f = (Ok None, f')).
  Proof.
    unfold parse_values, popt, pbind, set_focus. destruct (single_cases sx_values f) as [(l & -> & _)| ->]; [|right; eexists; reflexivity].
    destruct (values_here l) as [(is & f' & ->)|(f' & ->)]; [left; exists is, f'; reflexivity|right; exists f'; reflexivity].
  Qed.
  Lemma parse_nodekind_cases f : exists k f', parse_nodekind ord g f = (Ok k, f').
  Proof.
    unfold parse_nodekind, popt, pbind at 1. destruct (single_cases sx_node_kind f) as [(t & -> & _)| ->]; [|do 2 eexists; reflexivity].
    unfold pbind at 1, set_focus. destruct (nodekind_cases t) as [(k & ->)| ->]; do 2 eexists; reflexivity.
  Qed.
  Lemma node_constraint_reads f : exists k v f', node_constraint ord g f = (Ok (SNode (mkNC k None [] v)), f') /\
    match v with Some l => exists is, l = map TIri is | None => True end.
  Proof.
    unfold node_constraint, pbind at 1. destruct (parse_nodekind_cases f) as (k & f1 & ->). unfold pbind at 1.
    destruct (parse_values_cases f1) as [(is & f2 & ->)|(f2 & ->)]; [exists k, (Some (map TIri is)), f2|exists k, None, f2]; cbn; eauto.
  Qed.
  Lemma shape_cases f : (exists c, shape ord L g f = (Ok (SShape c None None), f)) \/ shape ord L g f = (Err, f).
  Proof.
    unfold shape, closed, popt, single, pbind. destruct (has_type_cases sx_shape f) as [-> | ->]; [|auto]. left.
    destruct (single_cases sx_closed f) as [(t & -> & _)| ->]; [|eexists; reflexivity]. unfold pres.
    destruct t as [i|b|n]; cbn [to_bool]; [eexists; reflexivity|eexists; reflexivity|]. destruct (l_bool L n); eexists; reflexivity.
  Qed.

  (** expressions *)
  Definition several fuel (c : N) (k : list sexpr -> sexpr) : parser sexpr :=
    pbind (has_type ord g c) (fun _ =>
    pbind (single_value ord g sx_shape_exprs) (fun t =>
    pbind (set_focus t) (fun _ => pmapr (listed ord g (shape_expr ord L g fuel)) k))).
  Lemma shape_expr_S fuel : shape_expr ord L g (S fuel) =
    porelse (porelse (porelse (several fuel sx_shape_and SAnd) (several fuel sx_shape_or SOr)) (shape ord L g)) (node_constraint ord g).
  Proof. reflexivity. Qed.
  Lemma several_not fuel c k s : has_type ord g c s = (Err, s) -> several fuel c k s = (Err, s).
  Proof. intro H. unfold several, pbind. rewrite H. reflexivity. Qed.

  (** it never fails, and never panics *)
  Lemma several_result fuel c k s : (forall f, fst (shape_expr ord L g fuel f) <> Err /\ fst (shape_expr ord L g fuel f) <> Panic) -> fst (several fuel c k s) <> Panic.
  Proof.
    intro IH. unfold several, pbind at 1. destruct (has_type_cases c s) as [-> | ->]; [|discriminate].
    unfold pbind at 1. destruct (single_cases sx_shape_exprs s) as [(t & -> & _)| ->]; [|discriminate]. unfold pbind at 1, set_focus.
    unfold pmapr, pbind at 1, listed, pbind at 1. destruct (list_cases t) as [(ts & f' & -> & _)|(f' & -> & _)]; [|discriminate].
    pose proof (pmap_not_err (fun t => pbind (set_focus t) (fun _ => shape_expr ord L g fuel)) ts (fun x _ f => IH x) f') as [_ H].
    destruct (pmap (fun t => pbind (set_focus t) (fun _ => shape_expr ord L g fuel)) ts f') as [[r| | |] f2]; cbn in *; congruence.
  Qed.
  Lemma shape_expr_never_err fuel : forall f, fst (shape_expr ord L g fuel f) <> Err /\ fst (shape_expr ord L g fuel f) <> Panic.
  Proof.
    induction fuel as [|fuel IH]; intro f; [cbn; split; discriminate|]. rewrite shape_expr_S. unfold porelse.
    pose proof (several_result fuel sx_shape_and SAnd f IH) as H1. destruct (several fuel sx_shape_and SAnd f) as [[a| | |] f1]; cbn in H1; try congruence; try (cbn; split; discriminate).
    pose proof (several_result fuel sx_shape_or SOr f1 IH) as H2. destruct (several fuel sx_shape_or SOr f1) as [[a| | |] f2]; cbn in H2; try congruence; try (cbn; split; discriminate).
    destruct (shape_cases f2) as [(c & ->)| ->]; [cbn; split; discriminate|].
    destruct (node_constraint_reads f2) as (k & v & f3 & -> & _). cbn. split; discriminate.
  Qed.
  (** what it says *)
  Lemma several_poor fuel c k s e f' : (forall f e f', shape_expr ord L g fuel f = (Ok e, f') -> poor e) -> (forall l, Forall poor l -> poor (k l)) ->
    several fuel c k s = (Ok e, f') -> poor e.
  Proof.
    intros IH K. unfold several, pbind at 1. destruct (has_type_cases c s) as [-> | ->]; [|discriminate].
    unfold pbind at 1. destruct (single_cases sx_shape_exprs s) as [(t & -> & _)| ->]; [|discriminate]. unfold pbind at 1, set_focus.
    unfold pmapr, pbind at 1, listed, pbind at 1. destruct (list_cases t) as [(ts & f1 & -> & _)|(f1 & -> & _)]; [|discriminate].
    destruct (pmap (fun t => pbind (set_focus t) (fun _ => shape_expr ord L g fuel)) ts f1) as [[r| | |] f2] eqn:E; try discriminate.
    intro H. injection H as <- _. apply K.
    apply (pmap_each (fun t => pbind (set_focus t) (fun _ => shape_expr ord L g fuel)) (fun _ e => poor e)) in E; [|intros x _ f y f3 Y; exact (IH _ _ _ Y)].
    clear -E. induction E; constructor; assumption.
  Qed.
  Lemma shape_expr_poor fuel : forall f e f', shape_expr ord L g fuel f = (Ok e, f') -> poor e.
  Proof.
    induction fuel as [|fuel IH]; intros f e f'; [discriminate|]. rewrite shape_expr_S. unfold porelse.
    destruct (several fuel sx_shape_and SAnd f) as [[a| | |] f1] eqn:E1; try discriminate; [intro H; injection H as <- _; exact (several_poor _ _ _ _ _ _ IH po_and E1)|].
    destruct (several fuel sx_shape_or SOr f1) as [[a| | |] f2] eqn:E2; try discriminate; [intro H; injection H as <- _; exact (several_poor _ _ _ _ _ _ IH po_or E2)|].
    destruct (shape_cases f2) as [(c & ->)| ->]; [intro H; injection H as <- _; constructor|].
    destruct (node_constraint_reads f2) as (k & v & f3 & -> & V). intro H. injection H as <- _. constructor. exact V.
  Qed.

  (** it ends where nothing is inside itself *)
  Lemma several_ends (rank : term -> nat) fuel c k s : (forall s t, visits g s t -> rank t < rank s) ->
    (forall f, rank f < fuel -> exists e f', shape_expr ord L g fuel f = (Ok e, f')) -> rank s < S fuel ->
    (exists e f', several fuel c k s = (Ok e, f')) \/ (exists f', several fuel c k s = (Err, f') /\ rank f' < S fuel).
  Proof.
    intros V IH R.
    assert (X : match several fuel c k s with (Ok _, _) => True | (Err, f') => rank f' < S fuel | _ => False end).
    { unfold several, pbind at 1. destruct (has_type_cases c s) as [-> | ->]; [|exact R].
      unfold pbind at 1. destruct (single_cases sx_shape_exprs s) as [(t & -> & I)| ->]; [|exact R]. unfold pbind at 1, set_focus.
      unfold pmapr, pbind at 1, listed, pbind at 1. destruct (list_cases t) as [(ts & f1 & -> & _ & H)|(f1 & -> & H)].
      - destruct (pmap_some (fun t => pbind (set_focus t) (fun _ => shape_expr ord L g fuel)) (fun _ => True) ts) with (f := f1) as (r & f2 & -> & _); [|exact Logic.I].
        intros x K f. destruct (H x K) as (c' & Hc & Hx). destruct (IH x) as (e & f2 & E); [|exists e, f2; split; [exact E|exact Logic.I]].
        assert (rank x < rank s) by (apply V; exists t, c'; auto). lia.
      - assert (rank f1 < rank s) by (apply V; exists t, f1; auto). lia. }
    destruct (several fuel c k s) as [[e| | |] f']; [left; eauto|right; eauto|contradiction|contradiction].
  Qed.
  Lemma shape_expr_ends (rank : term -> nat) : (forall s t, visits g s t -> rank t < rank s) ->
    forall fuel f, rank f < fuel -> exists e f', shape_expr ord L g fuel f = (Ok e, f').
  Proof.
    intro V. induction fuel as [|fuel IH]; intros f R; [lia|]. rewrite shape_expr_S. unfold porelse.
    destruct (several_ends rank fuel sx_shape_and SAnd f V IH R) as [(e & f' & ->)|(f1 & -> & R1)]; [eauto|].
    destruct (several_ends rank fuel sx_shape_or SOr f1 V IH R1) as [(e & f' & ->)|(f2 & -> & R2)]; [eauto|].
    destruct (shape_cases f2) as [(c & ->)| ->]; [eauto|].
    destruct (node_constraint_reads f2) as (k & v & f3 & -> & _). eauto.
  Qed.

  (** what is read of a node that stands for an expression *)
  Hypothesis wf : rdf_graph g.
  Hypothesis neat : tidy g.
  Lemma subject_of s p o : In (s, p, o) g -> term_as_subject s = Some s.
  Proof. intro I. apply wf in I. destruct s; [reflexivity|reflexivity|contradiction]. Qed.
  Lemma typed_subject s c : typed g s c -> term_as_subject s = Some s.
  Proof. intro T. apply (subject_of s rdf_type (TIri c)). apply T. reflexivity. Qed.

  Lemma node_constraint_typed s c : typed g s c -> c <> sx_node_constraint -> node_constraint ord g s = (Ok nothing, s).
  Proof.
    intros T N. destruct (proj1 neat s c T N) as [A B]. unfold node_constraint, pbind at 1, parse_nodekind, popt. unfold pbind at 1. rewrite (single_no _ _ A).
    unfold pbind at 1, parse_values, popt. unfold pbind at 1. rewrite (single_no _ _ B). reflexivity.
  Qed.
  Lemma others fuel s c : typed g s c -> c <> sx_shape_and -> c <> sx_shape_or -> c <> sx_shape -> shape_expr ord L g (S fuel) s = node_constraint ord g s.
  Proof.
    intros T A B D. pose proof (typed_subject s c T) as E. rewrite shape_expr_S. unfold porelse.
    rewrite (several_not fuel _ SAnd s (has_type_no s c _ E T A)), (several_not fuel _ SOr s (has_type_no s c _ E T B)).
    unfold shape, pbind at 1. rewrite (has_type_no s c _ E T D). reflexivity.
  Qed.
  Lemma several_reads fuel c k s l ts es : typed g s c -> only g s sx_shape_exprs l -> chain g l ts ->
    Forall2 (fun t e => exists f', shape_expr ord L g fuel t = (Ok e, f')) ts es -> exists f', several fuel c k s = (Ok (k es), f').
  Proof.
    intros T O C F. pose proof (typed_subject s c T) as E. unfold several, pbind at 1. rewrite (has_type_yes s c E T). unfold pbind at 1.
    rewrite (single_only ord g any s _ _ E O). unfold pbind at 1, set_focus. unfold pmapr, pbind at 1, listed, pbind at 1. rewrite (list_chain l ts C).
    destruct (pmap_ok2 (fun t => pbind (set_focus t) (fun _ => shape_expr ord L g fuel)) ts es) with (f := TIri rdf_nil) as (f' & ->); [|eexists; reflexivity].
    clear -F. induction F as [|t e ts es H F IH]; [constructor|]. constructor; [intro f; exact H|exact IH].
  Qed.
  Lemma node_reads s k d fs v : denotes L g s (SNode (mkNC k d fs v)) ->
    exists f', node_constraint ord g s = (Ok (SNode (what_is_left_of_node (mkNC k d fs v))), f').
  Proof.
    intro D. inversion D as [| | |s' k' d' fs' v' T K _ _ _ V| | |]; subst. pose proof (typed_subject s _ T) as E.
    unfold node_constraint, pbind at 1, parse_nodekind, popt. unfold pbind at 1. destruct k as [k|]; cbn [maybe] in K.
    - destruct K as (t & O & ->). rewrite (single_only ord g any s _ _ E O). unfold pbind at 1, set_focus.
      assert (X : forall k' : option nkind, exists f', pbind (parse_values ord g) (fun v => pret (SNode (mkNC k' None [] v))) (TIri (kind_iri k)) = (Ok (SNode (mkNC k' None [] None)), f')).
      { intro k'. unfold pbind at 1, parse_values, popt. unfold pbind at 1. rewrite (single_no _ _ (proj2 neat k)). eexists. reflexivity. }
      destruct k; cbv -[pbind parse_values pret]; apply X.
    - rewrite (single_no _ _ K). unfold pbind at 1, parse_values, popt. unfold pbind at 1. unfold what_is_left_of_node. cbn [n_kind n_values].
      destruct v as [ts|]; cbn [maybe] in V; [|rewrite (single_no _ _ V); eexists; reflexivity].
      destruct V as (l & O & C). rewrite (single_only ord g any s _ _ E O). unfold pbind at 1, set_focus.
      destruct (values_chain l ts C) as (f' & ->). destruct (only_iris ts); eexists; reflexivity.
  Qed.
  Lemma shape_reads s c x e : denotes L g s (SShape c x e) -> shape ord L g s = (Ok (SShape c None None), s).
  Proof.
    intro D. inversion D as [| | | |s' c' x' e' T K _ _| |]; subst. pose proof (typed_subject s _ T) as E. unfold shape, pbind at 1. rewrite (has_type_yes s _ E T).
    unfold pbind at 1, closed, popt, single. unfold pbind at 1. destruct c as [b|]; cbn [maybe] in K.
    - destruct K as (t & O & n & -> & B). rewrite (single_only ord g any s _ _ E O). unfold pres. cbn [to_bool]. rewrite B. reflexivity.
    - rewrite (single_no _ _ K). reflexivity.
  Qed.
  Lemma reads_left : forall e s, denotes L g s e -> exists n, forall fuel, n <= fuel -> exists f', shape_expr ord L g fuel s = (Ok (what_is_left e), f').
  Proof.
    assert (LIST : forall es, Forall (fun e => forall s, denotes L g s e -> exists n, forall fuel, n <= fuel -> exists f', shape_expr ord L g fuel s = (Ok (what_is_left e), f')) es ->
      forall ts, Forall2 (denotes L g) ts es -> exists n, forall fuel, n <= fuel -> Forall2 (fun t e => exists f', shape_expr ord L g fuel t = (Ok e, f')) ts (map what_is_left es)).
    { intros es H. induction H as [|e es H1 H2 IH]; intros ts F; inversion F as [|t e' ts' es' D F']; subst; [exists 0; intros; constructor|].
      destruct (H1 t D) as (n & N). destruct (IH ts' F') as (m & M). exists (n + m). intros fuel Fu. cbn [map]. constructor; [apply N; lia|apply M; lia]. }
    intro e. induction e as [l IH|l IH|e IH|n|c x e| |t] using sexpr_ind'; intros s D.
    - inversion D as [s' l' ts es T O C F| | | | | |]; subst. destruct (LIST l IH ts F) as (n & N). exists (S n). intros [|fuel] Fu; [lia|].
      destruct (several_reads fuel sx_shape_and SAnd s l' ts (map what_is_left l) T O C (N fuel ltac:(lia))) as (f' & E). exists f'.
      rewrite shape_expr_S. unfold porelse. rewrite E. reflexivity.
    - inversion D as [|s' l' ts es T O C F| | | | |]; subst. destruct (LIST l IH ts F) as (n & N). exists (S n). intros [|fuel] Fu; [lia|].
      destruct (several_reads fuel sx_shape_or SOr s l' ts (map what_is_left l) T O C (N fuel ltac:(lia))) as (f' & E). exists f'.
      pose proof (typed_subject s _ T) as Es. rewrite shape_expr_S. unfold porelse. rewrite (several_not fuel sx_shape_and SAnd s (has_type_no s _ sx_shape_and Es T ltac:(discriminate))), E. reflexivity.
    - inversion D as [| |s' t e' T O D'| | | |]; subst. exists 1. intros [|fuel] Fu; [lia|]. exists s.
      rewrite (others fuel s _ T) by discriminate. apply (node_constraint_typed s _ T). discriminate.
    - destruct n as [k d fs v]. exists 1. intros [|fuel] Fu; [lia|]. inversion D as [| | |s' k' d' fs' v' T _ _ _ _ _| | |]; subst.
      rewrite (others fuel s _ T) by discriminate. apply node_reads. exact D.
    - exists 1. intros [|fuel] Fu; [lia|]. exists s. inversion D as [| | | |s' c' x' e' T _ _ _| |]; subst. pose proof (typed_subject s _ T) as Es.
      rewrite shape_expr_S. unfold porelse. rewrite (several_not fuel sx_shape_and SAnd s (has_type_no s _ sx_shape_and Es T ltac:(discriminate))), (several_not fuel sx_shape_or SOr s (has_type_no s _ sx_shape_or Es T ltac:(discriminate))).
      rewrite (shape_reads s c x e D). reflexivity.
    - inversion D as [| | | | |s' T|]; subst. exists 1. intros [|fuel] Fu; [lia|]. exists s.
      rewrite (others fuel s _ T) by discriminate. apply (node_constraint_typed s _ T). discriminate.
    - inversion D as [| | | | | |s' T]; subst. exists 1. intros [|fuel] Fu; [lia|]. exists t.
      rewrite (others fuel t _ T) by discriminate. apply (node_constraint_typed t _ T). discriminate.
  Qed.
End Read.

(** expressions that are kept *)
Lemma simple_left e : simple e -> what_is_left e = e.
Proof.
  induction e as [l IH|l IH|e IH|n|c x e| |t] using sexpr_ind'; intro S; inversion S as [l' F|l' F|k K|is| |c']; subst; cbn.
  - f_equal. clear S. induction IH as [|e l H1 H2 IH]; [reflexivity|]. inversion F; subst. cbn. rewrite H1, IH by assumption. reflexivity.
  - f_equal. clear S. induction IH as [|e l H1 H2 IH]; [reflexivity|]. inversion F; subst. cbn. rewrite H1, IH by assumption. reflexivity.
  - destruct k; [reflexivity|reflexivity|congruence|reflexivity].
  - unfold what_is_left_of_node. cbn. assert (only_iris (map TIri is) = true) as -> by (clear; induction is as [|i is IH]; [reflexivity|exact IH]). reflexivity.
  - reflexivity.
  - reflexivity.
Qed.
