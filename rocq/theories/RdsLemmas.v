(** Lemmas about reading shapes graphs. *)
From Coq Require Import List Bool NArith ZArith Lia Permutation.
Import ListNotations.
From Verif Require Import PathModel PathSpec PathLemmas ShaclModel ShcModel TgtModel ReportModel ReportSpec ReportLemmas RdsModel RdsSpec.

(** with enough fuel the parser succeeds *)
Definition gives {A} (p : nat -> parser A) (f : term) (P : A -> term -> Prop) : Prop :=
  exists x f' n, P x f' /\ forall fuel, n <= fuel -> p fuel f = (Ok x, f').
Notation stays p f P := (gives p f (fun x f' => f' = f /\ P x)).

Section Gives.
  Lemma gives_impl {A} p f (P Q : A -> term -> Prop) : (forall x f', P x f' -> Q x f') -> gives p f P -> gives p f Q.
  Proof. intros I (x & f' & n & H & E). exists x, f', n. auto. Qed.
  Lemma gives_ret {A} (a : A) f (P : A -> term -> Prop) : P a f -> gives (fun _ => pret a) f P.
  Proof. intros H. exists a, f, 0. auto. Qed.
  Lemma gives_pres {A} (a : A) (r : res A) f (P : A -> term -> Prop) : r = Ok a -> P a f -> gives (fun _ => pres r) f P.
  Proof. intros -> H. exists a, f, 0. auto. Qed.
  Lemma gives_bind {A B} (p : nat -> parser A) (k : nat -> A -> parser B) f (P : A -> term -> Prop) Q :
    gives p f P -> (forall x f', P x f' -> gives (fun fuel => k fuel x) f' Q) -> gives (fun fuel => pbind (p fuel) (k fuel)) f Q.
  Proof.
    intros (x & f' & n & H & E) K. destruct (K x f' H) as (y & f'' & m & H' & E'). exists y, f'', (n + m). split; [exact H'|].
    intros fuel F. unfold pbind. rewrite E by lia. apply E'. lia.
  Qed.
  Lemma gives_map {A B} (p : nat -> parser A) (k : A -> B) f (P : A -> term -> Prop) (Q : B -> term -> Prop) :
    gives p f P -> (forall x f', P x f' -> Q (k x) f') -> gives (fun fuel => pmapr (p fuel) k) f Q.
  Proof. intros H K. apply (gives_bind p (fun _ a => pret (k a)) f P Q H). intros x f' Hx. apply gives_ret. auto. Qed.
  (** an optional value *)
  Lemma gives_opt {A} (p : nat -> parser A) f (P : option A -> term -> Prop) :
    gives p f (fun x f' => P (Some x) f') \/ (exists f' n, P None f' /\ forall fuel, n <= fuel -> p fuel f = (Err, f')) ->
    gives (fun fuel => popt (p fuel)) f P.
  Proof.
    intros [(x & f' & n & H & E)|(f' & n & H & E)].
    - exists (Some x), f', n. split; [exact H|]. intros fuel F. unfold popt. rewrite E by exact F. reflexivity.
    - exists None, f', n. split; [exact H|]. intros fuel F. unfold popt. rewrite E by exact F. reflexivity.
  Qed.
End Gives.

Lemma each_spec {A B} (k : A -> res B) l : (forall x, In x l -> exists y, k x = Ok y) ->
  exists ys, each k l = Ok ys /\ Forall2 (fun x y => k x = Ok y) l ys.
Proof.
  induction l as [|x l IH]; intro H; [exists []; split; [reflexivity|constructor]|].
  destruct (H x (or_introl eq_refl)) as (y & E). destruct IH as (ys & E' & F); [intros z I; apply H; right; exact I|].
  exists (y :: ys). split; [cbn; rewrite E; cbn; rewrite E'; reflexivity|constructor; assumption].
Qed.
Lemma keep_spec {A B} (k : A -> res B) l : (forall x, In x l -> exists y, k x = Ok y) ->
  exists ys, keep k l = Ok ys /\ Forall2 (fun x y => k x = Ok y) l ys.
Proof.
  induction l as [|x l IH]; intro H; [exists []; split; [reflexivity|constructor]|].
  destruct (H x (or_introl eq_refl)) as (y & E). destruct IH as (ys & E' & F); [intros z I; apply H; right; exact I|].
  exists (y :: ys). split; [cbn; rewrite E; rewrite E'; reflexivity|constructor; assumption].
Qed.
Lemma forall2_left {A B} (R : A -> B -> Prop) l m x : Forall2 R l m -> In x l -> exists y, In y m /\ R x y.
Proof. intro F. induction F as [|a b l m H F IH]; intros []; [subst; exists b; split; [left; reflexivity|exact H]|]. destruct (IH H0) as (y & I & K). exists y. split; [right; exact I|exact K]. Qed.
Lemma forall2_right {A B} (R : A -> B -> Prop) l m y : Forall2 R l m -> In y m -> exists x, In x l /\ R x y.
Proof. intro F. induction F as [|a b l m H F IH]; intros []; [subst; exists a; split; [left; reflexivity|exact H]|]. destruct (IH H0) as (x & I & K). exists x. split; [right; exact I|exact K]. Qed.
Lemma forall2_weaken {A B} (R Q : A -> B -> Prop) l m : (forall x y, R x y -> Q x y) -> Forall2 R l m -> Forall2 Q l m.
Proof. intros I F. induction F; constructor; auto. Qed.
Lemma forall2_det {A B} (R : A -> B -> Prop) l m m' : (forall x y y', R x y -> R x y' -> y = y') -> Forall2 R l m -> Forall2 R l m' -> m = m'.
Proof. intros D F. revert m'. induction F; intros m' F'; inversion F'; subst; [reflexivity|]. f_equal; [eapply D; eassumption|auto]. Qed.

Section Read.
  Variable ord : list term -> list term.
  Variable L : lits.
  Variable oc : other -> N.
  Variable pat : N -> option N -> N.
  Variable sev : option severity -> N.
  Variable g : graph.
  Hypothesis any : any_order ord.
  Hypothesis good : well_formed L g.
  Hypothesis bools : booleans L.

  Lemma from_ord l x : In x (ord l) -> In x l. Proof. apply (ord_in _ any). Qed.
  Lemma to_ord l x : In x l -> In x (ord l). Proof. apply (ord_in _ any). Qed.
  (** conversions do what the specification says *)
  Definition converts {A} (k : term -> res A) (R : term -> A -> Prop) : Prop := forall t x, k t = Ok x <-> R t x.
  Ltac conv := intros [n|n|n] x; cbn; split; intro H; try discriminate; try contradiction.
  Lemma conv_iri : converts to_iri is_iri. Proof. conv; unfold is_iri in *; congruence. Qed.
  Lemma of_opt {A} (o : option A) x : of_option o = Ok x <-> o = Some x.
  Proof. destruct o; cbn; split; congruence. Qed.
  Lemma conv_int : converts (to_int L) (is_int L). Proof. conv; apply of_opt; exact H. Qed.
  Lemma conv_bool : converts (to_bool L) (is_bool L). Proof. conv; apply of_opt; exact H. Qed.
  Lemma conv_lit : converts (to_lit L) (is_literal L). Proof. conv; apply of_opt; exact H. Qed.
  Lemma conv_text : converts (to_text L) (is_text L). Proof. conv; congruence. Qed.
  Lemma conv_object : converts (to_obj L) (is_object L).
  Proof.
    conv; try congruence; unfold to_obj, of_option in *; cbn in *.
    - destruct (l_key L n); cbn in H; [|discriminate]. injection H as <-. eexists. split; reflexivity.
    - destruct H as (m & E & ->). rewrite E. reflexivity.
  Qed.
  Lemma conv_value : converts (to_value L) (is_value L).
  Proof.
    conv; try congruence.
    - destruct (l_key L n); cbn in H; [|discriminate]. injection H as <-. eexists. split; reflexivity.
    - destruct H as (m & E & ->). rewrite E. reflexivity.
  Qed.
  Lemma conv_lang : converts (to_lang L) (is_tag L).
  Proof. conv; destruct (l_tag L n); congruence. Qed.
  Lemma conv_kind : converts to_kind is_kind.
  Proof.
    intros [n|n|n] x; unfold to_kind, is_kind; (split; [|intros [E I]; try discriminate]); try discriminate.
    - destruct (existsb (N.eqb n) node_kinds) eqn:E; [|discriminate]. intro H. injection H as <-. split; [reflexivity|].
      apply existsb_exists in E. destruct E as (m & I & E). apply N.eqb_eq in E. subst. exact I.
    - injection E as ->. assert (E : existsb (N.eqb x) node_kinds = true) by (apply existsb_exists; exists x; split; [exact I|apply N.eqb_refl]).
      rewrite E. reflexivity.
  Qed.
  Lemma node_object t o : is_node t o -> is_object L t o.
  Proof. intros [-> H]. destruct t; cbn in *; tauto. Qed.
  Lemma object_node t o : ~ literal t -> is_object L t o -> is_node t o.
  Proof. intros N H. destruct t; cbn in *; [split; auto..|tauto]. Qed.

  Definition fine (s : term) : Prop := term_as_subject s = Some s.
  Lemma fine_not s : fine s <-> ~ literal s.
  Proof. destruct s; cbn; split; intro H; try tauto; try discriminate; try (intros []; fail); reflexivity. Qed.
  Lemma not_literal s p o : In (s, p, o) g -> fine s.
  Proof. intro H. apply fine_not. pose proof (wf_graph _ _ good _ _ _ H) as K. destruct s; cbn in *; tauto. Qed.
  Lemma kind_of s p o K : In (s, p, o) g -> In (p, K) (kinds L g) -> K o.
  Proof. apply (wf_kinds _ _ good). Qed.
  Ltac tab := cbn; repeat (first [left; reflexivity|right]).

  (** the values of a property *)
  Lemma values_spec s p : exists l, values ord g p s = (Ok l, s) /\ forall o, In o l <-> In (s, p, o) g.
  Proof.
    unfold values. destruct (objects_for g s p) as [l| | |] eqn:E.
    - exists (ord l). split; [reflexivity|]. intro o. rewrite (ord_in _ any). apply (objects_for_in g s p l o E).
    - exists []. split; [reflexivity|]. intro o. split; [intros []|]. intro H. destruct (objects_for_ok g s p (not_literal _ _ _ H)) as (l & E'). congruence.
    - unfold objects_for in E. destruct (term_as_subject s); discriminate.
    - unfold objects_for in E. destruct (term_as_subject s); discriminate.
  Qed.
  Lemma gives_values s p : stays (fun _ => values ord g p) s (fun l => forall o, In o l <-> In (s, p, o) g).
  Proof. destruct (values_spec s p) as (l & E & H). exists l, s, 0. auto. Qed.
  Lemma each_values {A} (k : term -> res A) (R : term -> A -> Prop) s p : converts k R -> (forall o, In (s, p, o) g -> some R o) ->
    stays (fun _ => pbind (values ord g p) (fun l => pres (each k l))) s (fun ys => forall y, In y ys <-> has g R s p y).
  Proof.
    intros C H. eapply gives_bind; [apply gives_values|]. intros l f [-> V].
    destruct (each_spec k l) as (ys & E & F).
    { intros x I. apply V, H in I. destruct I as (y & I). exists y. apply C. exact I. }
    apply (gives_pres ys _ _ _ E). split; [reflexivity|]. intro y. split.
    - intro I. destruct (forall2_right _ _ _ _ F I) as (x & J & K). exists x. split; [apply V; exact J|apply C; exact K].
    - intros (x & J & K). destruct (forall2_left _ _ _ x F) as (z & I & M); [apply V; exact J|]. apply C in K. congruence.
  Qed.
  Lemma keep_values {A} (k : term -> res A) (R : term -> A -> Prop) s p : converts k R -> (forall o, In (s, p, o) g -> some R o) ->
    stays (fun _ => pbind (values ord g p) (fun l => pres (keep k l))) s (fun ys => forall y, In y ys <-> has g R s p y).
  Proof.
    intros C H. eapply gives_bind; [apply gives_values|]. intros l f [-> V].
    destruct (keep_spec k l) as (ys & E & F).
    { intros x I. apply V, H in I. destruct I as (y & I). exists y. apply C. exact I. }
    apply (gives_pres ys _ _ _ E). split; [reflexivity|]. intro y. split.
    - intro I. destruct (forall2_right _ _ _ _ F I) as (x & J & K). exists x. split; [apply V; exact J|apply C; exact K].
    - intros (x & J & K). destruct (forall2_left _ _ _ x F) as (z & I & M); [apply V; exact J|]. apply C in K. congruence.
  Qed.
  (** objects that are nodes *)
  Lemma node_values s p : (forall o, In (s, p, o) g -> some is_node o) ->
    stays (fun _ => objects_prop ord L g p) s (fun ys => forall y, In y ys <-> has g is_node s p y).
  Proof.
    intro H. eapply gives_impl; [|apply (each_values (to_obj L) (is_object L)); [exact conv_object|]].
    - intros x f [-> V]. split; [reflexivity|]. intro y. rewrite V. split; intros (o & I & K); exists o; (split; [exact I|]).
      + apply object_node; [|exact K]. destruct (H o I) as (z & _ & N). exact N.
      + apply node_object, K.
    - intros o I. destruct (H o I) as (y & N). exists y. apply node_object, N.
  Qed.
  (** properties with one value *)
  Lemma only_value s p o : In p singles -> In (s, p, o) g -> only g s p o.
  Proof. intros S H x. split; [intro K; apply (wf_singles _ _ good s p _ _ S K H)|intros ->; exact H]. Qed.
  Lemma decide_value s p : (exists o, In (s, p, o) g) \/ none g s p.
  Proof.
    destruct (values_spec s p) as ([|o l] & _ & V).
    - right. intros x H. apply V in H. destruct H.
    - left. exists o. apply V. left. reflexivity.
  Qed.
  Lemma single_no s p : none g s p -> single_value ord g p s = (Err, s).
  Proof.
    intro H. unfold single_value. destruct (objects_for g s p) as [l| | |] eqn:E; try reflexivity.
    assert (l = []) as ->. { destruct l as [|a l]; [reflexivity|]. destruct (H a). apply (proj1 (proj1 (objects_for_in g s p _ a E))). left. reflexivity. }
    rewrite (ord_none _ any). reflexivity.
  Qed.
  Lemma gives_single {A} (k : term -> res A) (R : term -> A -> Prop) s p : In p singles -> converts k R -> (forall o, In (s, p, o) g -> some R o) ->
    stays (fun _ => popt (single ord g k p)) s (fun x => may g R s p x).
  Proof.
    intros S C H. apply gives_opt. destruct (decide_value s p) as [(o & I)|N].
    - left. destruct (H o I) as (y & Hy). exists y, s, 0. split; [split; [reflexivity|]; exists o; auto|].
      intros fuel _. unfold single, pbind. rewrite (single_only ord g any s p o (not_literal _ _ _ I) (only_value s p o S I)). unfold pres. rewrite (proj2 (C o y) Hy). reflexivity.
    - right. exists s, 0. split; [split; [reflexivity|exact N]|]. intros fuel _. unfold single, pbind. rewrite (single_no s p N). reflexivity.
  Qed.
  (** lists *)
  Lemma chain_list n l : chain g n l -> rdf_list g n l.
  Proof. intro C. induction C as [|n x r l H E F R C IH]; [constructor|]. econstructor; [apply F; reflexivity|apply R; reflexivity|exact IH]. Qed.
  Lemma list_chain n l l' : chain g n l -> rdf_list g n l' -> l' = l.
  Proof.
    intro C. revert l'. induction C as [|n x r l H E F R C IH]; intros l' H'; inversion H' as [|m y r' k A B K]; subst.
    - reflexivity.
    - destruct (wf_nil _ _ good _ A).
    - congruence.
    - apply F in A. apply R in B. subst. f_equal. apply IH. exact K.
  Qed.
  Lemma gives_list n l : chain g n l -> gives (fun fuel => the_list ord g fuel) n (fun x f' => x = l /\ f' = TIri rdf_nil).
  Proof. intro C. exists l, (TIri rdf_nil), (S (length l)). split; [auto|]. intros fuel F. apply list_parser_chain; [exact any|exact C|lia]. Qed.
  (** values that are read with the focus on them *)
  Lemma gives_pmap {A} (k : nat -> parser A) (R : term -> A -> Prop) l : (forall o, In o l -> gives k o (fun y _ => R o y)) -> forall f,
    gives (fun fuel => pmap (fun t => pbind (set_focus t) (fun _ => k fuel)) l) f (fun ys _ => Forall2 R l ys).
  Proof.
    induction l as [|o l IH]; intros H f.
    - apply gives_ret. constructor.
    - destruct (H o (or_introl eq_refl)) as (y & f1 & n & Hy & E). destruct (IH (fun x I => H x (or_intror I)) f1) as (ys & f2 & m & Hys & E').
      exists (y :: ys), f2, (n + m). split; [constructor; assumption|]. intros fuel F. cbn [pmap].
      assert (X : pbind (set_focus o) (fun _ => k fuel) f = (Ok y, f1)) by (unfold pbind, set_focus; apply E; lia).
      unfold pbind at 1. rewrite X. assert (X' := E' fuel ltac:(lia)). unfold pbind at 1. rewrite X'. reflexivity.
  Qed.
  Lemma gives_map_property {A} (k : nat -> parser A) (R : term -> A -> Prop) s p : (forall o, In (s, p, o) g -> gives k o (fun y _ => R o y)) ->
    (forall o y y', R o y -> R o y' -> y = y') ->
    stays (fun fuel => map_property ord g p (k fuel)) s (fun ys => forall y, In y ys <-> has g R s p y).
  Proof.
    intros H D. unfold map_property. destruct (values_spec s p) as (l & E & V).
    destruct (gives_pmap k R l (fun o I => H o (proj1 (V o) I)) s) as (ys & f1 & n & F & E').
    exists ys, s, n. split.
    - split; [reflexivity|]. intro y. split.
      + intro I. destruct (forall2_right _ _ _ _ F I) as (o & J & K). exists o. split; [apply V; exact J|exact K].
      + intros (o & J & K). destruct (forall2_left _ _ _ o F) as (z & I & M); [apply V; exact J|]. rewrite (D _ _ _ K M). exact I.
    - intros fuel F'. unfold pbind at 1, get_focus. unfold pbind at 1. rewrite E. unfold pbind at 1. rewrite E' by exact F'. reflexivity.
  Qed.
  Lemma is_list_det {A} (R : term -> A -> Prop) t l l' : chained g R t -> (forall o y y', R o y -> R o y' -> y = y') -> is_list g R t l -> is_list g R t l' -> l = l'.
  Proof.
    intros (ts & C & _) D (k & K & F) (k' & K' & F'). rewrite (list_chain _ _ _ C K) in F. rewrite (list_chain _ _ _ C K') in F'. eapply forall2_det; eassumption.
  Qed.
  Lemma converts_det {A} (k : term -> res A) R : converts k R -> forall o y y', R o y -> R o y' -> y = y'.
  Proof. intros C o y y' H H'. apply C in H, H'. congruence. Qed.
  (** a list of converted members *)
  Lemma gives_list_each {A B} (k : term -> res A) (R : term -> A -> Prop) (K : list A -> B) (cv : (term -> res A) -> list term -> res (list A)) t :
    (cv = each \/ cv = keep) -> converts k R -> chained g R t ->
    gives (fun fuel => pbind (the_list ord g fuel) (fun l => pmapr (pres (cv k l)) K)) t (fun y _ => exists l, is_list g R t l /\ y = K l).
  Proof.
    intros HC C (ts & Ch & H). eapply gives_bind; [apply (gives_list _ _ Ch)|]. intros l f [-> ->].
    assert (X : exists ys, cv k ts = Ok ys /\ Forall2 (fun x y => k x = Ok y) ts ys).
    { assert (forall x, In x ts -> exists y, k x = Ok y) by (intros x I; destruct (H x I) as (y & Hy); exists y; apply C; exact Hy).
      destruct HC as [-> | ->]; [apply each_spec|apply keep_spec]; assumption. }
    destruct X as (ys & E & F). eapply gives_map; [apply (gives_pres ys _ _ (fun x _ => x = ys) E eq_refl)|]. intros x f' ->. exists ys. split; [|reflexivity].
    exists ts. split; [apply chain_list; exact Ch|]. eapply forall2_weaken; [|exact F]. intros a b Hab. apply C. exact Hab.
  Qed.

  (** ** components *)
  (** a parser that reads some of the components *)
  Definition part_of {A} (kin : A -> A -> Prop) (D : A -> Prop) (l : list A) : Prop :=
    (forall c, In c l -> D c) /\ forall c, D c -> exists c', In c' l /\ kin c c'.
  Notation part := (part_of akin).
  Definition of_kind {A} (K : A -> acomp) (R : A -> Prop) (c : acomp) : Prop := exists x, c = K x /\ R x.
  Lemma part_map {A} (K : A -> acomp) (R : A -> Prop) l : (forall x, In x l <-> R x) -> part (of_kind K R) (map K l).
  Proof.
    intro H. split.
    - intros c I. apply in_map_iff in I. destruct I as (x & <- & I). exists x. split; [reflexivity|apply H; exact I].
    - intros c (x & -> & Rx). exists (K x). split; [apply in_map, H, Rx|left; reflexivity].
  Qed.
  Lemma gives_part {A} (p : nat -> parser (list A)) (K : A -> acomp) (R : A -> Prop) s :
    stays p s (fun ys => forall y, In y ys <-> R y) -> stays (fun fuel => pmapr (p fuel) (map K)) s (part (of_kind K R)).
  Proof. intro H. eapply gives_map; [exact H|]. intros x f' [-> V]. split; [reflexivity|]. apply part_map. exact V. Qed.

  Section Focus.
    Variable s : term.
    Notation has := (has g).
    Ltac kind := intros o HI; exact (kind_of _ _ _ _ HI ltac:(tab)).
    Lemma read_class : stays (fun _ => class ord L g) s (part (of_kind AClass (has is_node s sh_class))).
    Proof. apply (gives_part (fun _ => objects_prop ord L g sh_class)), node_values. kind. Qed.
    Lemma read_kind : stays (fun _ => node_kind ord oc g) s (part (of_kind (fun k => AOther (oc (OKind k))) (has is_kind s sh_node_kind))).
    Proof.
      destruct (keep_values to_kind is_kind s sh_node_kind conv_kind) as (x & f & n & [-> V] & E); [kind|].
      exists (map (fun k => AOther (oc (OKind k))) x), s, n. split; [split; [reflexivity|apply part_map; exact V]|].
      intros fuel F. specialize (E fuel F). unfold node_kind. destruct (values_spec s sh_node_kind) as (l & El & _). unfold pbind in E |- *. rewrite El in E |- *.
      unfold pmapr, pbind. rewrite E. reflexivity.
    Qed.
    Lemma read_datatype : stays (fun _ => datatype ord g) s (part (of_kind (fun d => ADatatype (IriFull d)) (has is_iri s sh_datatype))).
    Proof. apply (gives_part (fun _ => iris_prop ord g sh_datatype)), each_values; [exact conv_iri|kind]. Qed.
    Lemma read_count p K : In (p, some (is_int L)) (kinds L g) -> stays (fun _ => count ord L g p K) s (part (of_kind K (has (is_int L) s p))).
    Proof. intro T. apply (gives_part (fun _ => ints_prop ord L g p)), each_values; [exact conv_int|]. intros o HI. exact (kind_of _ _ _ _ HI T). Qed.
    Lemma read_range p r : In (p, some (is_literal L)) (kinds L g) ->
      stays (fun _ => in_range ord L oc g p r) s (part (of_kind (fun n => AOther (oc (ORange r n))) (has (is_literal L) s p))).
    Proof. intro T. apply (gives_part (fun _ => lits_prop ord L g p)), each_values; [exact conv_lit|]. intros o HI. exact (kind_of _ _ _ _ HI T). Qed.
    Lemma read_pair p K : In (p, some is_iri) (kinds L g) -> stays (fun _ => pair ord g p K) s (part (of_kind (fun n => K (IriFull n)) (has is_iri s p))).
    Proof. intro T. apply (gives_part (fun _ => iris_prop ord g p)), each_values; [exact conv_iri|]. intros o HI. exact (kind_of _ _ _ _ HI T). Qed.
    Lemma read_bools p K : In (p, some (is_bool L)) (kinds L g) -> stays (fun _ => pmapr (bools_prop ord L g p) (map K)) s (part (of_kind K (has (is_bool L) s p))).
    Proof. intro T. apply (gives_part (fun _ => bools_prop ord L g p)), keep_values; [exact conv_bool|]. intros o HI. exact (kind_of _ _ _ _ HI T). Qed.
    Lemma values_single p : In p singles -> (exists o, In (s, p, o) g /\ values ord g p s = (Ok [o], s)) \/ none g s p /\ values ord g p s = (Ok [], s).
    Proof.
      intro T. destruct (decide_value s p) as [(o & I)|N].
      - left. exists o. split; [exact I|]. unfold values. rewrite (objects_only g s p o (not_literal _ _ _ I) (only_value s p o T I)), (ord_one _ any). reflexivity.
      - right. split; [exact N|]. destruct (values_spec s p) as ([|a l] & E & V); [exact E|]. destruct (N a). apply V. left. reflexivity.
    Qed.
    Lemma single_det {A} (k : term -> res A) (R : term -> A -> Prop) p x y : converts k R -> In p singles -> has R s p x -> has R s p y -> x = y.
    Proof. intros C T (o & I & H) (o' & I' & H'). rewrite (wf_singles _ _ good s p o o' T I I') in H. eapply converts_det; eassumption. Qed.
    Lemma may_det {A} (k : term -> res A) (R : term -> A -> Prop) p x y : converts k R -> In p singles -> may g R s p x -> may g R s p y -> x = y.
    Proof.
      intros C T M M'. destruct x as [x|], y as [y|]; cbn in M, M'; try reflexivity.
      - f_equal. eapply single_det; eassumption.
      - destruct M as (o & I & _). destruct (M' o I).
      - destruct M' as (o & I & _). destruct (M o I).
    Qed.
    Lemma read_pattern : stays (fun _ => pattern ord L pat g) s
      (part (fun c => exists x f, c = APattern (pat x f) /\ has (is_text L) s sh_pattern x /\ may g (is_text L) s sh_flags f)).
    Proof.
      eapply gives_bind; [apply (gives_single (to_text L) (is_text L)); [tab|exact conv_text|kind]|]. intros fl f [-> M].
      destruct (values_single sh_pattern ltac:(tab)) as [(o & I & E)|[N E]].
      - pose proof (kind_of _ _ _ (some (is_text L)) I ltac:(tab)) as (x & Hx).
        exists [APattern (pat x fl)], s, 0. split; [split; [reflexivity|]; split|].
        + intros c [<-|[]]. exists x, fl. split; [reflexivity|]. split; [exists o; auto|exact M].
        + intros c (x' & f & -> & H & Mf). exists (APattern (pat x fl)). split; [left; reflexivity|left].
          rewrite (may_det _ _ sh_flags _ _ conv_text ltac:(tab) Mf M), (single_det _ _ sh_pattern x' x conv_text ltac:(tab) H); [reflexivity|exists o; auto].
        + intros fuel _. unfold texts_prop, pbind. rewrite E. unfold pres. cbn [each]. rewrite (proj2 (conv_text o x) Hx). reflexivity.
      - exists [], s, 0. split; [split; [reflexivity|]; split|].
        + intros c [].
        + intros c (x & f & _ & (o & I & _) & _). destruct (N o I).
        + intros fuel _. unfold texts_prop, pbind. rewrite E. reflexivity.
    Qed.
    (** components of which the value is read with the focus on it *)
    Lemma read_each {A} (k : nat -> parser acomp) (R : term -> A -> Prop) (K : A -> acomp) p :
      (forall o, In (s, p, o) g -> gives k o (fun y _ => exists x, R o x /\ y = K x)) -> (forall o x x', In (s, p, o) g -> R o x -> R o x' -> x = x') ->
      stays (fun fuel => map_property ord g p (k fuel)) s (part (of_kind K (has R s p))).
    Proof.
      intros H D.
      assert (X : stays (fun fuel => map_property ord g p (k fuel)) s (fun ys => forall y, In y ys <-> has (fun o y => In (s, p, o) g /\ exists x, R o x /\ y = K x) s p y)).
      { apply gives_map_property.
        - intros o I. eapply gives_impl; [|exact (H o I)]. intros y f Hy. auto.
        - intros o y y' [I (x & Rx & ->)] [_ (x' & Rx' & ->)]. f_equal. eapply D; eassumption. }
      eapply gives_impl; [|exact X]. intros ys f [-> V]. split; [reflexivity|]. split.
      - intros c I. apply V in I. destruct I as (o & I & _ & x & Rx & ->). exists x. split; [reflexivity|]. exists o. auto.
      - intros c (x & -> & o & I & Rx). exists (K x). split; [|left; reflexivity]. apply V. exists o. split; [exact I|]. split; [exact I|]. exists x. auto.
    Qed.
    Lemma read_list {A} (k : term -> res A) (R : term -> A -> Prop) (K : list A -> acomp) cv p :
      (cv = each \/ cv = keep) -> converts k R -> In (p, chained g R) (kinds L g) ->
      stays (fun fuel => map_property ord g p (pbind (the_list ord g fuel) (fun l => pmapr (pres (cv k l)) K))) s (part (of_kind K (has (is_list g R) s p))).
    Proof.
      intros HC C T. apply (read_each (fun fuel => pbind (the_list ord g fuel) (fun l => pmapr (pres (cv k l)) K))).
      - intros o I. apply gives_list_each; [exact HC|exact C|]. exact (kind_of _ _ _ _ I T).
      - intros o x x' I. apply is_list_det; [exact (kind_of _ _ _ _ I T)|]. apply (converts_det k). exact C.
    Qed.
    Lemma read_languages : stays (fun fuel => language_in ord L oc g fuel) s (part (of_kind (fun l => AOther (oc (OLanguages l))) (has (is_list g (is_tag L)) s sh_language_in))).
    Proof. apply (read_list (to_lang L) (is_tag L) (fun l => AOther (oc (OLanguages l))) keep); [auto|exact conv_lang|tab]. Qed.
    Lemma read_in : stays (fun fuel => in_component ord L g fuel) s (part (of_kind AIn (has (is_list g (is_value L)) s sh_in))).
    Proof. apply (read_list (to_value L) (is_value L) AIn keep); [auto|exact conv_value|tab]. Qed.
    Lemma nodes_objects ts l : (forall x, In x ts -> some is_node x) -> Forall2 (is_object L) ts l <-> Forall2 is_node ts l.
    Proof.
      intro H. split; intro F; revert H; (induction F as [|x y ts l Hxy F IH]; intro H; constructor; [|apply IH; intros z I; apply H; right; exact I]).
      - apply object_node; [|exact Hxy]. destruct (H x (or_introl eq_refl)) as (z & _ & N). exact N.
      - apply node_object, Hxy.
    Qed.
    Lemma read_shapes p K : In (p, chained g is_node) (kinds L g) -> stays (fun fuel => shape_list ord L g fuel p K) s (part (of_kind K (has (is_list g is_node) s p))).
    Proof.
      intro T. apply (read_each (fun fuel => pbind (the_list ord g fuel) (fun l => pmapr (pres (each (to_obj L) l)) K))).
      - intros o I. destruct (kind_of _ _ _ _ I T) as (ts & C & H).
        eapply gives_impl; [|apply (gives_list_each (to_obj L) (is_object L) K each); [auto|exact conv_object|]].
        + intros y f (l & (ts' & Hl & F) & ->). exists l. split; [|reflexivity]. exists ts'. split; [exact Hl|]. apply nodes_objects; [|exact F].
          rewrite (list_chain _ _ _ C Hl). exact H.
        + exists ts. split; [exact C|]. intros x I'. destruct (H x I') as (y & N). exists y. apply node_object, N.
      - intros o x x' I. apply is_list_det; [exact (kind_of _ _ _ _ I T)|]. intros t y y' [-> _] [-> _]. reflexivity.
    Qed.
    Lemma read_shape p K : In (p, some is_node) (kinds L g) -> stays (fun _ => one_shape ord L g p K) s (part (of_kind K (has is_node s p))).
    Proof.
      intro T. apply (read_each (fun _ => pbind get_focus (fun t => pmapr (pres (to_obj L t)) K))).
      - intros o I. destruct (kind_of _ _ _ _ I T) as (y & N). exists (K y), o, 0. split; [exists y; auto|]. intros fuel _.
        unfold pbind, get_focus, pmapr, pbind, pres. rewrite (proj2 (conv_object o y) (node_object _ _ N)). reflexivity.
      - intros o x x' _ [-> _] [-> _]. reflexivity.
    Qed.
    Lemma read_has_value : stays (fun _ => has_value ord L g) s (part (of_kind AHasValue (has (is_value L) s sh_has_value))).
    Proof.
      apply (read_each (fun _ => pbind get_focus (fun t => pmapr (pres (to_value L t)) AHasValue))).
      - intros o I. destruct (kind_of _ _ _ (some (is_value L)) I ltac:(tab)) as (y & N). exists (AHasValue y), o, 0. split; [exists y; auto|]. intros fuel _.
        unfold pbind, get_focus, pmapr, pbind, pres. rewrite (proj2 (conv_value o y) N). reflexivity.
      - intros o x x' _. apply (converts_det (to_value L)). exact conv_value.
    Qed.
    (** siblings *)
    Definition step_path : path := PSeq [PPred sh_property; PPred sh_qualified].
    Lemma path_fuel fuel q : objects_for_path ord g fuel step_path q = objects_for_path ord g (enough g) step_path q.
    Proof. reflexivity. Qed.
    Lemma path_values q : fine q ->
      exists l, objects_for_path ord g (enough g) step_path q = Ok l /\
        forall j, In j l <-> exists o, In (q, sh_property, o) g /\ In (o, sh_qualified, j) g.
    Proof.
      intro Q.
      pose proof (path_good ord any g step_path (conj Logic.I (conj Logic.I Logic.I)) (enough g) q) as G.
      destruct (objects_for_path ord g (enough g) step_path q) as [l| | |]; cbn in G.
      - destruct G as (_ & V & _). exists l. split; [reflexivity|]. intro j. rewrite V. split.
        + intros (m & A & m' & B & <-). eauto.
        + intros (m & A & B). exists m. split; [exact A|]. exists j. auto.
      - exfalso. destruct G as (x & [E|(m & I & [E|(m' & _ & [])])] & Lx).
        + apply fine_not in Q. apply Q. rewrite E. exact Lx.
        + destruct (kind_of _ _ _ (some is_node) I ltac:(tab)) as (y & _ & N). apply N. rewrite E. exact Lx.
      - destruct G.
      - lia.
    Qed.
    Lemma object_of_node t o : In (t, sh_qualified, o) g -> to_obj L o = Ok o /\ ~ literal o.
    Proof. intro I. destruct (kind_of _ _ _ (some is_node) I ltac:(tab)) as (y & -> & N). split; [|exact N]. apply conv_object, node_object. split; auto. Qed.
    Definition sib_of (qvs : list term) (fuel : nat) (q : term) : res (list term) :=
      bind (objects_for_path ord g fuel step_path q) (fun cs => each (to_obj L) (filter (fun c => negb (tmem c qvs)) (ord cs))).
    Lemma sib_of_spec qvs : (forall j, In j qvs <-> In (s, sh_qualified, j) g) -> forall q, fine q ->
      exists l, sib_of qvs (enough g) q = Ok l /\
        forall j, In j l <-> ~ In (s, sh_qualified, j) g /\ exists o, In (q, sh_property, o) g /\ In (o, sh_qualified, j) g.
    Proof.
      intros HQ q Q. unfold sib_of. destruct (path_values q Q) as (cs & E & V). rewrite E. cbn [bind].
      destruct (each_spec (to_obj L) (filter (fun c => negb (tmem c qvs)) (ord cs))) as (ys & Ey & F).
      { intros x I. apply filter_In in I. destruct I as [I _]. apply from_ord, V in I. destruct I as (o & _ & I). exists x. apply (object_of_node _ _ I). }
      exists ys. split; [exact Ey|]. intro j.
      assert (M : forall x, In x (filter (fun c => negb (tmem c qvs)) (ord cs)) <-> ~ In (s, sh_qualified, x) g /\ exists o, In (q, sh_property, o) g /\ In (o, sh_qualified, x) g).
      { intro x. rewrite filter_In, (ord_in _ any), V, negb_true_iff, <- HQ. rewrite <- (tmem_spec x qvs). destruct (tmem x qvs); intuition congruence. }
      rewrite <- M. split; intro I.
      - destruct (forall2_right _ _ _ _ F I) as (x & J & K). pose proof J as J'. apply M in J'. destruct J' as (_ & o & _ & Io). rewrite (proj1 (object_of_node _ _ Io)) in K. injection K as <-. exact J.
      - destruct (forall2_left _ _ _ _ F I) as (x & J & K). apply M in I. destruct I as (_ & o & _ & Io). rewrite (proj1 (object_of_node _ _ Io)) in K. injection K as <-. exact J.
    Qed.
    Lemma read_siblings : fine s -> stays (fun fuel => siblings ord L g fuel) s (fun l => forall j, In j l <-> sibling L g s j /\ exists t, In (s, sh_qualified, t) g).
    Proof.
      intro FS. destruct (values_single sh_qualified_disjoint ltac:(tab)) as [(d & I & _)|[N _]].
      -         pose proof (kind_of _ _ _ (some (is_bool L)) I ltac:(tab)) as (b & Hb).
        destruct d as [|?|n]; cbn in Hb; try tauto. destruct (bools n b Hb) as (m & Km & Bm).
        destruct (objects_for_ok g s sh_qualified FS) as (qvs & EQ). pose proof (fun j => proj1 (objects_for_in g s sh_qualified qvs j EQ)) as VQ.
        assert (OF : object_for ord g (TgtModel.as_object (l_key L)) s sh_qualified_disjoint = Ok (Some (TLit m))).
        { unfold object_for. rewrite (objects_only g s sh_qualified_disjoint (TLit n) FS (only_value s sh_qualified_disjoint _ ltac:(tab) I)). cbn [bind].
          rewrite (ord_one _ any). cbn. rewrite Km. reflexivity. }
        assert (SB : b = true <-> has (is_bool L) s sh_qualified_disjoint true).
        { split; [intros ->; exists (TLit n); auto|]. intro H. eapply (single_det (to_bool L)); [exact conv_bool| |exists (TLit n); eauto|exact H]. tab. }
        destruct b.
        + destruct qvs as [|q0 qvs'] eqn:Q.
          * exists [], s, 0. split; [split; [reflexivity|]|].
            -- intro j. split; [intros []|]. intros (_ & t & It). apply VQ in It. destruct It.
            -- intros fuel _. unfold siblings. rewrite OF. cbn [bind]. rewrite Bm, EQ. reflexivity.
          * rewrite <- Q in *. destruct (each_spec (sib_of qvs (enough g)) (ord (tset (map (fun t => fst (fst t)) (filter (fun t => term_eqb (snd t) s && N.eqb (snd (fst t)) sh_property) g))))) as (ls & El & F).
            { intros q Iq. apply from_ord in Iq. pose proof (subjects_for_good g 0 s sh_property) as G. cbn in G. destruct G as (_ & V & _). apply V in Iq.
              destruct (sib_of_spec qvs VQ q (not_literal _ _ _ Iq)) as (l & E & _). eauto. }
            exists (concat ls), s, 0. split; [split; [reflexivity|]|].
            -- intro j. rewrite in_concat. pose proof (subjects_for_good g 0 s sh_property) as G. cbn in G. destruct G as (_ & V & _). split.
               ++ intros (l & Il & Ij). destruct (forall2_right _ _ _ _ F Il) as (q & Iq & E). apply from_ord, V in Iq.
                  destruct (sib_of_spec qvs VQ q (not_literal _ _ _ Iq)) as (l' & E' & Vl). assert (l' = l) by congruence. subst l'. apply Vl in Ij. destruct Ij as (Nj & o & Io & Ij).
                  split; [split; [apply SB; reflexivity|]; split; [exact Nj|]; exists q, o; auto|]. exists q0. apply VQ. rewrite Q. left. reflexivity.
               ++ intros ((_ & Nj & q & o & Iq & Io & Ij) & _). destruct (forall2_left _ _ _ q F) as (l & Il & E); [apply to_ord, V; exact Iq|].
                  exists l. split; [exact Il|]. destruct (sib_of_spec qvs VQ q (not_literal _ _ _ Iq)) as (l' & E' & Vl). assert (l' = l) by congruence. subst l'. apply Vl. eauto.
            -- intros fuel _. unfold siblings. rewrite OF. cbn [bind]. rewrite Bm, EQ. cbn [bind]. rewrite Q at 1. unfold subjects_for. cbn [bind]. 
               change (fun q => bind (objects_for_path ord g fuel (PSeq [PPred sh_property; PPred sh_qualified]) q) (fun cs => each (to_obj L) (filter (fun c => negb (tmem c qvs)) (ord cs))))
                 with (sib_of qvs (enough g)). rewrite El. reflexivity.
        + exists [], s, 0. split; [split; [reflexivity|]|].
          * intro j. split; [intros []|]. intros ((H & _) & _). apply SB in H. discriminate.
          * intros fuel _. unfold siblings. rewrite OF. cbn [bind]. rewrite Bm. reflexivity.
      - exists [], s, 0. split; [split; [reflexivity|]|].
        + intro j. split; [intros []|]. intros (((o & I & _) & _) & _). destruct (N o I).
        + intros fuel _. unfold siblings, object_for. rewrite (objects_none g s _ FS N). cbn [bind]. rewrite (ord_none _ any). reflexivity.
    Qed.
    Lemma read_qualified : fine s -> stays (fun fuel => qualified ord L g fuel) s
      (part (fun c => exists t qmin qmax d sib, c = AQualified t qmin qmax d sib /\ declared L oc pat g s c)).
    Proof.
      intro FS.
      eapply gives_bind; [apply node_values; kind|]. intros qvs f [-> VQ].
      eapply gives_bind; [apply (gives_single (to_bool L) (is_bool L)); [tab|exact conv_bool|kind]|]. intros d f [-> Hd].
      eapply gives_bind; [apply (gives_single (to_int L) (is_int L)); [tab|exact conv_int|kind]|]. intros qmin f [-> Hmin].
      eapply gives_bind; [apply (gives_single (to_int L) (is_int L)); [tab|exact conv_int|kind]|]. intros qmax f [-> Hmax].
      eapply gives_bind; [apply read_siblings; exact FS|]. intros sib f [-> Hs].
      apply gives_ret. split; [reflexivity|]. split.
      - intros c I. apply in_map_iff in I. destruct I as (t & <- & I). apply from_ord, (proj1 (tset_in _ _)), VQ in I.
        exists t, qmin, qmax, d, sib. split; [reflexivity|]. refine (conj I (conj Hmin (conj Hmax (conj Hd _)))).
        intro j. rewrite Hs. split; [tauto|]. intro H. split; [exact H|]. destruct I as (o & I & _). eauto.
      - intros c (t & qmin' & qmax' & d' & sib' & -> & It & Hmin' & Hmax' & Hd' & Hs').
        rewrite (may_det _ _ sh_qualified_min _ _ conv_int ltac:(tab) Hmin' Hmin), (may_det _ _ sh_qualified_max _ _ conv_int ltac:(tab) Hmax' Hmax),
          (may_det _ _ sh_qualified_disjoint _ _ conv_bool ltac:(tab) Hd' Hd).
        exists (AQualified t qmin qmax d sib). split; [apply in_map_iff; exists t; split; [reflexivity|]; apply to_ord, tset_in, VQ; exact It|].
        right. exists t, qmin, qmax, d, sib', sib. split; [reflexivity|]. split; [reflexivity|]. intro j. rewrite Hs, Hs'. split; [|tauto].
        intro H. split; [exact H|]. destruct It as (o & I & _). eauto.
    Qed.
    Definition moved (f : term) : Prop := f = s \/ f = TIri rdf_nil /\ exists o, In (s, sh_ignored, o) g.
    Lemma read_ignored : gives (fun fuel => ignored_properties ord g fuel) s
      (fun l f => moved f /\ forall l', has (is_list g is_iri) s sh_ignored l' \/ none g s sh_ignored /\ l' = [] <-> l' = l).
    Proof.
      unfold ignored_properties. destruct (values_single sh_ignored ltac:(tab)) as [(o & I & _)|[N _]].
      - destruct (kind_of _ _ _ (chained g is_iri) I ltac:(tab)) as (ts & C & H).
        destruct (each_spec to_iri ts) as (l & E & F); [intros x Ix; destruct (H x Ix) as (y & Hy); exists y; apply conv_iri; exact Hy|].
        exists l, (TIri rdf_nil), (S (length ts)). split; [split|].
        + right. eauto.
        + assert (X : has (is_list g is_iri) s sh_ignored l).
          { exists o. split; [exact I|]. exists ts. split; [apply chain_list; exact C|]. eapply forall2_weaken; [|exact F]. intros a b Hab. apply conv_iri. exact Hab. }
          intro l'. split; [|intros ->; left; exact X]. intros [(o' & I' & K)|[N _]]; [|destruct (N o I)].
          rewrite (wf_singles _ _ good s sh_ignored o' o ltac:(tab) I' I) in K. destruct X as (o'' & I'' & X).
          rewrite (wf_singles _ _ good s sh_ignored o'' o ltac:(tab) I'' I) in X.
          eapply is_list_det; [exact (kind_of _ _ _ (chained g is_iri) I ltac:(tab))|apply (converts_det to_iri); exact conv_iri|exact K|exact X].
        + intros fuel Fu. assert (X : pbind (single_value ord g sh_ignored) (fun t => pbind (set_focus t) (fun _ => the_list ord g fuel)) s = (Ok ts, TIri rdf_nil)).
          { unfold pbind at 1. rewrite (single_only ord g any s sh_ignored o (not_literal _ _ _ I) (only_value s sh_ignored o ltac:(tab) I)).
            unfold pbind, set_focus. apply list_parser_chain; [exact any|exact C|lia]. }
          unfold pbind at 1, popt. rewrite X. unfold pres. rewrite E. reflexivity.
      - exists [], s, 0. split; [split; [left; reflexivity|]|].
        + intro l'. split; [intros [(o & I & _)|[_ E]]; [destruct (N o I)|exact E]|intros ->; right; auto].
        + intros fuel _. unfold pbind at 1, popt. unfold pbind at 1. rewrite (single_no s sh_ignored N). reflexivity.
    Qed.
    Lemma read_closed : gives (fun fuel => closed ord L g fuel) s
      (fun l f => moved f /\ part (fun c => exists b ig, c = AClosed b ig /\ declared L oc pat g s c) l).
    Proof.
      eapply gives_bind; [apply (gives_single (to_bool L) (is_bool L)); [tab|exact conv_bool|kind]|]. intros o f [-> Ho].
      eapply gives_map; [apply read_ignored|]. intros ig f [M Hi]. split; [exact M|]. destruct o as [b|].
      - split.
        + intros c [<-|[]]. exists b, ig. split; [reflexivity|]. split; [exact Ho|apply Hi; reflexivity].
        + intros c (b' & ig' & -> & Hb & Hig). apply Hi in Hig. subst ig'. exists (AClosed b ig). split; [left; reflexivity|left].
          rewrite (single_det _ _ sh_closed b' b conv_bool ltac:(tab) Hb Ho). reflexivity.
      - split; [intros c []|]. intros c (b & ig' & -> & (x & I & _) & _). destruct (Ho x I).
    Qed.
  End Focus.

  Section Cat.
    Context {A : Type} (kin : A -> A -> Prop).
    Notation partA := (part_of kin).
    Lemma part_ext (D D' : A -> Prop) l : (forall c, D c <-> D' c) -> partA D l -> partA D' l.
    Proof. intros E [H K]. split; [intros c I; apply E, H, I|intros c I; apply K, E, I]. Qed.
    Lemma part_app (D D' : A -> Prop) l l' : partA D l -> partA D' l' -> partA (fun c => D c \/ D' c) (l ++ l').
    Proof.
      intros [H K] [H' K']. split.
      - intros c I. apply in_app_iff in I. destruct I; auto.
      - intros c [I|I]; [destruct (K c I) as (c' & J & M)|destruct (K' c I) as (c' & J & M)]; exists c'; (split; [apply in_app_iff; auto|exact M]).
    Qed.
    (** several parsers, one after the other *)
    Lemma gives_pcat s (ps : list (nat -> parser (list A))) (Ds : list (A -> Prop)) (rest : nat -> list (parser (list A))) (Q : list A -> term -> Prop) :
      Forall2 (fun p D => stays p s (partA D)) ps Ds -> gives (fun fuel => pcat (rest fuel)) s Q ->
      gives (fun fuel => pcat (map (fun p => p fuel) ps ++ rest fuel)) s (fun z f => exists x y, z = x ++ y /\ partA (fun c => Exists (fun D => D c) Ds) x /\ Q y f).
    Proof.
      intros F G. induction F as [|p D ps Ds H F IH].
      - eapply gives_impl; [|exact G]. intros y f Hy. exists [], y. split; [reflexivity|]. split; [|exact Hy]. split; [intros c []|]. intros c X. inversion X.
      - cbn [map app pcat]. eapply gives_bind; [exact H|]. intros x f [-> Hx].
        eapply gives_bind; [exact IH|]. intros z f (x' & y & -> & Hx' & Hy). apply gives_ret. exists (x ++ x'), y. split; [apply app_assoc|]. split; [|exact Hy].
        eapply part_ext; [|exact (part_app _ _ _ _ Hx Hx')]. intro c. cbn. split; [intros [K|K]; [left|right]; exact K|intro K; inversion K; subst; auto].
    Qed.
    Lemma gives_all s (ps : list (nat -> parser (list A))) (Ds : list (A -> Prop)) : Forall2 (fun p D => stays p s (partA D)) ps Ds ->
      stays (fun fuel => pcat (map (fun p => p fuel) ps)) s (partA (fun c => Exists (fun D => D c) Ds)).
    Proof.
      intro F. assert (G : gives (fun fuel => pcat (map (fun p => p fuel) ps ++ [])) s (fun z f => exists x y, z = x ++ y /\ partA (fun c => Exists (fun D => D c) Ds) x /\ (f = s /\ y = []))).
      { apply (gives_pcat s ps Ds (fun _ => []) (fun y f => f = s /\ y = [])); [exact F|]. apply gives_ret. auto. }
      destruct G as (z & f & n & (x & y & -> & H & -> & ->) & E). rewrite app_nil_r in E. exists x, s, n. split; [auto|]. intros fuel Fu. rewrite <- (app_nil_r (map _ ps)). apply E. exact Fu.
    Qed.
  End Cat.

  Section Shape.
    Variable s : term.
    Hypothesis FS : fine s.
    Hypothesis alone : ignored_alone g.
    Notation has := (has g).
    Definition first_parts : list (acomp -> Prop) :=
      [of_kind AClass (has is_node s sh_class);
       of_kind (fun k => AOther (oc (OKind k))) (has is_kind s sh_node_kind);
       of_kind (fun d => ADatatype (IriFull d)) (has is_iri s sh_datatype);
       of_kind AMinCount (has (is_int L) s sh_min_count); of_kind AMaxCount (has (is_int L) s sh_max_count);
       of_kind (fun n => AOther (oc (ORange MinInclusive n))) (has (is_literal L) s sh_min_inclusive);
       of_kind (fun n => AOther (oc (ORange MinExclusive n))) (has (is_literal L) s sh_min_exclusive);
       of_kind (fun n => AOther (oc (ORange MaxInclusive n))) (has (is_literal L) s sh_max_inclusive);
       of_kind (fun n => AOther (oc (ORange MaxExclusive n))) (has (is_literal L) s sh_max_exclusive);
       of_kind (fun z => AOther (oc (OMinLength z))) (has (is_int L) s sh_min_length); of_kind (fun z => AOther (oc (OMaxLength z))) (has (is_int L) s sh_max_length);
       (fun c => exists x f, c = APattern (pat x f) /\ has (is_text L) s sh_pattern x /\ may g (is_text L) s sh_flags f);
       of_kind (fun l => AOther (oc (OLanguages l))) (has (is_list g (is_tag L)) s sh_language_in);
       of_kind AUniqueLang (has (is_bool L) s sh_unique_lang);
       of_kind (fun n => AEquals (IriFull n)) (has is_iri s sh_equals); of_kind (fun n => ADisjoint (IriFull n)) (has is_iri s sh_disjoint);
       of_kind (fun n => ALess false (IriFull n)) (has is_iri s sh_less_than); of_kind (fun n => ALess true (IriFull n)) (has is_iri s sh_less_than_or_equals);
       of_kind ANot (has is_node s sh_not); of_kind AAnd (has (is_list g is_node) s sh_and); of_kind AOr (has (is_list g is_node) s sh_or);
       of_kind AXone (has (is_list g is_node) s sh_xone); of_kind ANode (has is_node s sh_node);
       (fun c => exists t qmin qmax d sib, c = AQualified t qmin qmax d sib /\ declared L oc pat g s c)].
    Definition late_parts (f : term) : list (acomp -> Prop) :=
      [of_kind AHasValue (has (is_value L) f sh_has_value); of_kind AIn (has (is_list g (is_value L)) f sh_in); of_kind ADeactivated (has (is_bool L) f sh_deactivated)].
    Definition first_parsers : list (nat -> parser (list acomp)) :=
      [fun _ => class ord L g; fun _ => node_kind ord oc g; fun _ => datatype ord g; fun _ => count ord L g sh_min_count AMinCount; fun _ => count ord L g sh_max_count AMaxCount;
       fun _ => in_range ord L oc g sh_min_inclusive MinInclusive; fun _ => in_range ord L oc g sh_min_exclusive MinExclusive;
       fun _ => in_range ord L oc g sh_max_inclusive MaxInclusive; fun _ => in_range ord L oc g sh_max_exclusive MaxExclusive;
       fun _ => count ord L g sh_min_length (fun z => AOther (oc (OMinLength z))); fun _ => count ord L g sh_max_length (fun z => AOther (oc (OMaxLength z)));
       fun _ => pattern ord L pat g; fun fuel => language_in ord L oc g fuel; fun _ => unique_lang ord L g;
       fun _ => pair ord g sh_equals AEquals; fun _ => pair ord g sh_disjoint ADisjoint; fun _ => pair ord g sh_less_than (ALess false); fun _ => pair ord g sh_less_than_or_equals (ALess true);
       fun _ => one_shape ord L g sh_not ANot; fun fuel => shape_list ord L g fuel sh_and AAnd; fun fuel => shape_list ord L g fuel sh_or AOr;
       fun fuel => shape_list ord L g fuel sh_xone AXone; fun _ => one_shape ord L g sh_node ANode; fun fuel => qualified ord L g fuel].
    Definition late_parsers : list (nat -> parser (list acomp)) := [fun _ => has_value ord L g; fun fuel => in_component ord L g fuel; fun _ => deactivated ord L g].
    Lemma first_read : Forall2 (fun p D => stays p s (part D)) first_parsers first_parts.
    Proof.
      unfold first_parsers, first_parts.
      repeat (apply Forall2_cons; [first [apply read_class|apply read_kind|apply read_datatype|apply read_count; tab|apply read_range; tab|apply read_pattern|apply read_languages
        |apply read_bools; tab|apply read_pair; tab|apply read_shape; tab|apply read_shapes; tab|apply read_qualified; exact FS]|]). constructor.
    Qed.
    Lemma late_read f : Forall2 (fun p D => stays p f (part D)) late_parsers (late_parts f).
    Proof. unfold late_parsers, late_parts. repeat (apply Forall2_cons; [first [apply read_has_value|apply read_in|apply read_bools; tab]|]). constructor. Qed.
    Lemma late_moved f c : moved s f -> (Exists (fun D => D c) (late_parts f) <-> Exists (fun D => D c) (late_parts s)).
    Proof.
      intros [->|[-> (o & I)]]; [reflexivity|]. unfold late_parts. rewrite !Exists_cons, !Exists_nil.
      assert (H : forall A (K : A -> acomp) R p, In p read_late -> (of_kind K (has R (TIri rdf_nil) p) c <-> of_kind K (has R s p) c)).
      { intros A K R p T. destruct (alone p o T) as [N M]. split; intros (x & _ & o' & I' & _); exfalso.
        - destruct (alone p o' T) as [N' _]. exact (N' I').
        - exact (M s o' I I'). }
      rewrite !H by tab. reflexivity.
    Qed.
    Lemma all_parts c : declared L oc pat g s c <->
      Exists (fun D => D c) first_parts \/ (exists b ig, c = AClosed b ig /\ declared L oc pat g s c) \/ Exists (fun D => D c) (late_parts s).
    Proof.
      split.
      - intro H. destruct c as [t|[d|d]|k|k|z|z|b|[p|p]|[p|p]|[] [p|p]|l|l|l|t|t|b l|v|l|t qmin qmax d sib|b]; cbn in H; try contradiction;
          try (right; left; eexists; eexists; split; [reflexivity|exact H]);
          try (destruct H as ([] & H & ->); cbn in H; try destruct r);
          try (destruct H as (x & f & H1 & H2 & ->));
          try (left; unfold first_parts; solve [repeat (first [apply Exists_cons_hd; solve [eexists; split; [reflexivity|exact H]|do 5 eexists; split; [reflexivity|exact H]|do 2 eexists; split; [reflexivity|split; eassumption]]|apply Exists_cons_tl])]);
          try (right; right; unfold late_parts; solve [repeat (first [apply Exists_cons_hd; eexists; split; [reflexivity|exact H]|apply Exists_cons_tl])]).
      - intros [H|[(b & ig & -> & H)|H]]; [|exact H|]; unfold first_parts, late_parts in H; rewrite !Exists_cons, Exists_nil in H;
          repeat (destruct H as [H|H]; [first [destruct H as (t & qmin & qmax & d & sib & -> & H); exact H|destruct H as (x & f & -> & H1 & H2); exists x, f; auto
            |destruct H as (x & -> & H); first [exact H|eexists; split; [|reflexivity]; exact H]]|]); contradiction.
    Qed.
    Lemma components_eq fuel : components ord L oc pat g fuel = pcat (map (fun p => p fuel) first_parsers ++ closed ord L g fuel :: map (fun p => p fuel) late_parsers).
    Proof. reflexivity. Qed.
    Lemma read_components : gives (fun fuel => components ord L oc pat g fuel) s (fun l _ => part (declared L oc pat g s) l).
    Proof.
      assert (G : gives (fun fuel => pcat (closed ord L g fuel :: map (fun p => p fuel) late_parsers)) s
        (fun y _ => part (fun c => (exists b ig, c = AClosed b ig /\ declared L oc pat g s c) \/ Exists (fun D => D c) (late_parts s)) y)).
      { cbn [pcat]. eapply gives_bind; [apply read_closed|]. intros x f [M Hx].
        eapply gives_bind; [exact (gives_all akin f late_parsers (late_parts f) (late_read f))|]. intros y f' [-> Hy]. apply gives_ret. apply part_app; [exact Hx|].
        eapply part_ext; [|exact Hy]. intro c. apply late_moved. exact M. }
      pose proof (gives_pcat akin s first_parsers first_parts (fun fuel => closed ord L g fuel :: map (fun p => p fuel) late_parsers) _ first_read G) as (z & f & n & (x & y & -> & Hx & Hy) & E).
      exists (x ++ y), f, n. split; [|exact E]. eapply part_ext; [|exact (part_app akin _ _ _ _ Hx Hy)]. intro c. symmetry. apply all_parts.
    Qed.

    (** ** the rest of a shape *)
    Lemma part_eq_map {A B} (K : A -> B) (R : A -> Prop) (l : list A) : (forall x, In x l <-> R x) -> part_of eq (fun c => exists x, c = K x /\ R x) (map K l).
    Proof.
      intro H. split.
      - intros c I. apply in_map_iff in I. destruct I as (x & <- & I). exists x. split; [reflexivity|apply H; exact I].
      - intros c (x & -> & Rx). exists (K x). split; [apply in_map, H, Rx|reflexivity].
    Qed.
    Lemma instances_in t c : tmem t (instances_of_class g c) = true <-> In (t, rdf_type, TIri c) g.
    Proof.
      rewrite tmem_spec. unfold instances_of_class. pose proof (subjects_for_good g 0 (TIri c) rdf_type) as G. unfold subjects_for in *. cbn in G. apply G.
    Qed.
    Lemma read_targets : stays (fun _ => targets ord L g) s (fun l => forall x, In x l <-> declared_target L g s x).
    Proof.
      set (ps := [fun _ : nat => pmapr (iris_prop ord g sh_target_class) (map (fun n => TgClass (TIri n))); fun _ => pmapr (objects_prop ord L g sh_target_node) (map TgNode); fun _ => implicit_class g;
          fun _ => pmapr (iris_prop ord g sh_target_subjects_of) (map TgSubjectsOf); fun _ => pmapr (iris_prop ord g sh_target_objects_of) (map TgObjectsOf)]).
      set (Ds := [fun c => exists n, c = TgClass (TIri n) /\ has is_iri s sh_target_class n; fun c => exists t, c = TgNode t /\ has (is_object L) s sh_target_node t;
          fun c => exists t, c = TgImplicit t /\ declared_target L g s (TgImplicit t);
          fun c => exists n, c = TgSubjectsOf n /\ has is_iri s sh_target_subjects_of n; fun c => exists n, c = TgObjectsOf n /\ has is_iri s sh_target_objects_of n]).
      assert (F : Forall2 (fun p D => stays p s (part_of eq D)) ps Ds).
      { assert (KI : forall p K, In (p, some is_iri) (kinds L g) -> stays (fun _ : nat => pmapr (iris_prop ord g p) (map K)) s (part_of eq (fun c : target => exists n, c = K n /\ has is_iri s p n))).
        { intros p K T. eapply gives_map; [apply (each_values to_iri is_iri); [exact conv_iri|intros o HI; exact (kind_of _ _ _ _ HI T)]|]. intros x f [-> V]. split; [reflexivity|]. apply part_eq_map. exact V. }
        repeat apply Forall2_cons; [apply KI; tab| | |apply KI; tab|apply KI; tab|constructor].
        - eapply gives_map; [apply (each_values (to_obj L) (is_object L)); [exact conv_object|intros o HI; exact (kind_of _ _ _ _ HI ltac:(tab))]|]. intros x f [-> V]. split; [reflexivity|]. apply part_eq_map. exact V.
        - exists (if tmem s (instances_of_class g rdfs_class) && (tmem s (instances_of_class g sh_property_shape) || tmem s (instances_of_class g sh_node_shape)) then [TgImplicit s] else []), s, 0.
          split; [|reflexivity]. split; [reflexivity|].
          pose proof (instances_in s rdfs_class) as I1. pose proof (instances_in s sh_property_shape) as I2. pose proof (instances_in s sh_node_shape) as I3.
          assert (X : tmem s (instances_of_class g rdfs_class) && (tmem s (instances_of_class g sh_property_shape) || tmem s (instances_of_class g sh_node_shape)) = true <-> declared_target L g s (TgImplicit s)).
          { rewrite andb_true_iff, orb_true_iff, I1, I2, I3. cbn. tauto. }
          destruct (tmem s (instances_of_class g rdfs_class) && _).
          + split; [intros c [<-|[]]; exists s; split; [reflexivity|apply X; reflexivity]|]. intros c (t & -> & H). exists (TgImplicit s). split; [left; reflexivity|]. f_equal. apply H.
          + split; [intros c []|]. intros c (t & -> & H). assert (t = s) by apply H. subst t. apply X in H. discriminate. }
      eapply gives_impl; [|exact (gives_all eq s ps Ds F)]. intros l f [-> [H K]]. split; [reflexivity|].
      assert (E : forall x, Exists (fun D => D x) Ds <-> declared_target L g s x).
      { intro x. unfold Ds. rewrite !Exists_cons, Exists_nil. destruct x as [t|t|p|p|t|t]; cbn [declared_target]; split; intro X;
          try (repeat (destruct X as [X|X]); try contradiction; destruct X as (y & E & X); try discriminate; injection E as E; subst; solve [exact X|eexists; split; [reflexivity|exact X]]).
        - right. left. eauto.
        - left. destruct X as (i & -> & X). eauto.
        - right. right. right. left. eauto.
        - right. right. right. right. left. eauto.
        - right. right. left. eauto. }
      intro x. rewrite <- E. split; [apply H|]. intro X. destruct (K x X) as (c & I & ->). exact I.
    Qed.
    Lemma severity_iri i : exists x, severity_of_iri i = x /\ iri_of_severity x = i /\ plain_severity x.
    Proof.
      exists (severity_of_iri i). split; [reflexivity|]. unfold severity_of_iri.
      destruct (N.eqb_spec i sh_trace) as [->|N1]; [split; [reflexivity|exact Logic.I]|]. destruct (N.eqb_spec i sh_debug) as [->|N2]; [split; [reflexivity|exact Logic.I]|].
      destruct (N.eqb_spec i sh_info) as [->|N3]; [split; [reflexivity|exact Logic.I]|]. destruct (N.eqb_spec i sh_warning) as [->|N4]; [split; [reflexivity|exact Logic.I]|].
      destruct (N.eqb_spec i sh_violation) as [->|N5]; [split; [reflexivity|exact Logic.I]|]. split; [reflexivity|]. cbn. intuition congruence.
    Qed.
    Lemma read_severity : stays (fun _ => severity_value ord sev g) s (declared_severity sev g s).
    Proof.
      eapply gives_map with (P := fun x f => f = s /\ declared_severity sev g s (sev x)); [|intros x f H; exact H].
      apply gives_opt. destruct (values_single s sh_severity ltac:(tab)) as [(o & I & _)|[N _]].
      - left. pose proof (kind_of _ _ _ (some is_iri) I ltac:(tab)) as (i & ->). exists (severity_of_iri i), s, 0. split.
        + split; [reflexivity|]. right. destruct (severity_iri i) as (x & -> & E & P). exists x. rewrite E. auto.
        + intros fuel _. unfold pmapr, single, pbind. rewrite (single_only ord g any s sh_severity _ FS (only_value s sh_severity _ ltac:(tab) I)). reflexivity.
      - right. exists s, 0. split; [split; [reflexivity|left; auto]|]. intros fuel _. unfold pmapr, single, pbind. rewrite (single_no s sh_severity N). reflexivity.
    Qed.
    Lemma read_reifier : stays (fun _ => reifier_shape ord L g) s (declared_reifier L g s).
    Proof.
      eapply gives_bind; [apply gives_values|]. intros vs f [-> V].
      eapply gives_map; [apply (gives_single (to_bool L) (is_bool L)); [tab|exact conv_bool|intros o HI; exact (kind_of _ _ _ _ HI ltac:(tab))]|]. intros b f [-> Hb].
      assert (X : flat_map (fun t => match as_object (l_key L) t with Some o => [o] | None => [] end) vs = vs).
      { assert (H : forall o, In o vs -> as_object (l_key L) o = Some o).
        { intros o I. apply V in I. destruct (kind_of _ _ _ (some is_node) I ltac:(tab)) as (y & _ & N). destruct o; [reflexivity..|]. destruct (N Logic.I). }
        clear - H. induction vs as [|o vs IH]; [reflexivity|]. cbn. rewrite H by (left; reflexivity). cbn. f_equal. apply IH. intros x I. apply H. right. exact I. }
      split; [reflexivity|]. rewrite X. destruct vs as [|v vs].
      - intros o I. apply V in I. destruct I.
      - cbn [declared_reifier]. split; [discriminate|]. split; [exact V|]. destruct b as [b|].
        + split; [intros ->; exact Hb|]. intro H. exact (single_det s _ _ sh_reification_required b true conv_bool ltac:(tab) Hb H).
        + split; [discriminate|]. intros (o & I & _). destruct (Hb o I).
    Qed.
    Lemma read_id : stays (fun _ => the_id L) s (fun t => t = s).
    Proof. exists s, s, 0. split; [auto|]. intros fuel _. unfold the_id, pbind, get_focus, pres. rewrite (proj2 (conv_object s s)); [reflexivity|]. apply node_object. split; [reflexivity|apply fine_not; exact FS]. Qed.
    Lemma read_props : stays (fun _ => objects_prop ord L g sh_property) s (fun l => forall j, In j l <-> In (s, sh_property, j) g).
    Proof.
      eapply gives_impl; [|apply node_values; intros o HI; exact (kind_of _ _ _ _ HI ltac:(tab))]. intros l f [-> V]. split; [reflexivity|]. intro j. rewrite V. split.
      - intros (o & I & -> & _). exact I.
      - intro I. exists j. split; [exact I|]. destruct (kind_of _ _ _ (some is_node) I ltac:(tab)) as (y & _ & N). split; auto.
    Qed.
    Lemma spells_encodes p : forall t, spells g t p -> encodes g t p.
    Proof.
      induction p as [i|ps IH|ps IH|q IH|q IH|q IH|q IH] using path_ind'; intros t H; inversion H; subst.
      - constructor.
      - econstructor; [apply H1; reflexivity|apply chain_list; eassumption|]. revert IH H4. clear. intros IH F. induction F; [constructor|]. inversion IH; subst. constructor; auto.
      - econstructor; [apply chain_list; eassumption|]. revert IH H3. clear. intros IH F. induction F; [constructor|]. inversion IH; subst. constructor; auto.
      - econstructor; [apply H1; reflexivity|auto].
      - econstructor; [apply H1; reflexivity|auto].
      - econstructor; [apply H1; reflexivity|auto].
      - econstructor; [apply H1; reflexivity|auto].
    Qed.

    Notation shape_parser := (fun fuel => shape ord L oc pat sev g fuel).
    Lemma read_node_shape : none g s sh_path -> gives (fun fuel => node_shape ord L oc pat sev g fuel) s (fun x _ => fst x = s /\ describes L oc pat sev g s (snd x)).
    Proof.
      intro N. unfold node_shape. destruct (values_single s sh_path ltac:(tab)) as [(o & I & _)|[_ E]]; [destruct (N o I)|].
      eapply gives_bind with (P := fun x f => f = s /\ x = []); [exists [], s, 0; split; [auto|intros fuel _; exact E]|]. intros l f [-> ->].
      eapply gives_bind; [apply read_id|]. intros id f [-> ->].
      eapply gives_bind; [apply read_severity|]. intros sv f [-> Hsv].
      eapply gives_bind; [apply read_targets|]. intros ts f [-> Hts].
      eapply gives_bind; [apply read_props|]. intros ps f [-> Hps].
      eapply gives_map; [apply read_components|]. intros cs f [H K]. split; [reflexivity|]. constructor; cbn; auto.
    Qed.
    Lemma read_property_shape o : In (s, sh_path, o) g -> gives (fun fuel => property_shape ord L oc pat sev g fuel) s (fun x _ => fst x = s /\ describes L oc pat sev g s (snd x)).
    Proof.
      intro I. destruct (kind_of _ _ _ (some (spells g)) I ltac:(tab)) as (p & Hp). destruct (spells_reads ord g any p o Hp) as (n & Hn).
      unfold property_shape. eapply gives_bind with (P := fun x f => f = s /\ x = s); [exists s, s, 0; split; [auto|reflexivity]|]. intros x0 f [-> ->].
      eapply gives_bind; [apply read_id|]. intros id f [-> ->].
      assert (G : gives (fun fuel => pbind (set_focus s) (fun _ => pbind (severity_value ord sev g) (fun sv => pbind (reifier_shape ord L g) (fun r => pbind (targets ord L g) (fun ts =>
        pbind (objects_prop ord L g sh_property) (fun ps => pmapr (components ord L oc pat g fuel) (fun cs => (s, mkAshape (Some p) cs ps ts sv r)))))))) s (fun x _ => fst x = s /\ describes L oc pat sev g s (snd x))).
      { eapply gives_bind with (P := fun _ f => f = s); [exists tt, s, 0; split; [auto|reflexivity]|]. intros ? f ->.
        eapply gives_bind; [apply read_severity|]. intros sv f [-> Hsv].
        eapply gives_bind; [apply read_reifier|]. intros r f [-> Hr].
        eapply gives_bind; [apply read_targets|]. intros ts f [-> Hts].
        eapply gives_bind; [apply read_props|]. intros ps f [-> Hps].
        eapply gives_map; [apply read_components|]. intros cs f [H K]. split; [reflexivity|]. constructor; cbn; auto. exists o. split; [exact I|apply spells_encodes; exact Hp]. }
      destruct G as (x & f & m & P & E). exists x, f, (n + m). split; [exact P|]. intros fuel F. destruct (Hn fuel s ltac:(lia)) as (f' & Ef).
      assert (X : pbind (single_value ord g sh_path) (path_parser ord g fuel) s = (Ok p, f')).
      { unfold pbind. rewrite (single_only ord g any s sh_path o FS (only_value s sh_path o ltac:(tab) I)). exact Ef. }
      unfold pbind at 1. rewrite X. exact (E fuel ltac:(lia)).
    Qed.
    Lemma read_shape_all : gives shape_parser s (fun x _ => fst x = s /\ describes L oc pat sev g s (snd x)).
    Proof.
      destruct (values_single s sh_path ltac:(tab)) as [(o & I & E)|[N _]].
      - destruct (read_property_shape o I) as (x & f & n & P & E'). exists x, f, n. split; [exact P|]. intros fuel F. unfold shape, porelse, node_shape, pbind at 1. rewrite E. exact (E' fuel F).
      - destruct (read_node_shape N) as (x & f & n & P & E'). exists x, f, n. split; [exact P|]. intros fuel F. unfold shape, porelse. rewrite (E' fuel F). reflexivity.
    Qed.
  End Shape.

  (** ** all shapes *)
  Lemma plain_objects_in p t : In t (plain_objects g p) <-> ~ literal t /\ exists s, In (s, p, t) g.
  Proof.
    clear - p t. unfold plain_objects. rewrite tset_in, filter_In, in_map_iff. split.
    - intros [(((a & b) & c) & E & I) N]. cbn in E. subst c. apply filter_In in I. destruct I as [I T]. cbn in T. apply N.eqb_eq in T. subst b. split; [destruct t; cbn; try tauto; discriminate|eauto].
    - intros [N (a & I)]. split; [|destruct t; [reflexivity..|destruct (N Logic.I)]]. exists (a, p, t). split; [reflexivity|]. apply filter_In. split; [exact I|apply N.eqb_refl].
  Qed.
  Lemma subjects_with_in p t : In t (subjects_with g p) <-> exists o, In (t, p, o) g.
  Proof.
    unfold subjects_with. rewrite tset_in, in_map_iff. split.
    - intros (((a & b) & c) & E & I). cbn in E. subst a. apply filter_In in I. destruct I as [I T]. cbn in T. apply N.eqb_eq in T. subst b. eauto.
    - intros (o & I). exists (t, p, o). split; [reflexivity|]. apply filter_In. split; [exact I|apply N.eqb_refl].
  Qed.
  Lemma gives_each {A B} (k : nat -> A -> res B) (R : A -> B -> Prop) l : (forall x, In x l -> exists y n, R x y /\ forall fuel, n <= fuel -> k fuel x = Ok y) ->
    exists ys n, Forall2 R l ys /\ forall fuel, n <= fuel -> each (k fuel) l = Ok ys.
  Proof.
    induction l as [|x l IH]; intro H; [exists [], 0; split; [constructor|reflexivity]|].
    destruct (H x (or_introl eq_refl)) as (y & n & Ry & E). destruct IH as (ys & m & F & E'); [intros z I; apply H; right; exact I|].
    exists (y :: ys), (n + m). split; [constructor; assumption|]. intros fuel Fu. cbn. rewrite E by lia. cbn. rewrite E' by lia. reflexivity.
  Qed.
  Lemma read_members p : In (p, chained g is_node) (kinds L g) ->
    exists l n, (forall t, In t l <-> exists s o ts, In (s, p, o) g /\ rdf_list g o ts /\ In t ts) /\ forall fuel, n <= fuel -> list_members ord g fuel p = Ok l.
  Proof.
    intro T.
    destruct (gives_each (fun fuel t => bind (fst (the_list ord g fuel t)) (each to_subject)) (fun o l => chain g o l) (ord (plain_objects g p))) as (ls & n & F & E).
    { intros o I. apply from_ord, plain_objects_in in I. destruct I as [_ (s & I)]. destruct (kind_of _ _ _ _ I T) as (ts & C & H).
      exists ts, (S (length ts)). split; [exact C|]. intros fuel Fu. unfold the_list. rewrite (list_parser_chain ord g any o ts fuel C) by lia. cbn.
      destruct (each_spec to_subject ts) as (ys & E & F).
      { intros x Ix. destruct (H x Ix) as (y & -> & N). exists x. destruct x; [reflexivity..|destruct (N Logic.I)]. }
      rewrite E. f_equal. eapply (forall2_det (fun x y => to_subject x = Ok y)); [intros; congruence|exact F|]. clear - H.
      induction ts as [|x ts IH]; constructor; [|apply IH; intros z I; apply H; right; exact I]. destruct (H x (or_introl eq_refl)) as (y & _ & N). destruct x; [reflexivity..|destruct (N Logic.I)]. }
    exists (concat ls), n. split.
    - intro t. rewrite in_concat. split.
      + intros (l & Il & It). destruct (forall2_right _ _ _ _ F Il) as (o & Io & C). apply from_ord, plain_objects_in in Io. destruct Io as [_ (s & Io)].
        exists s, o, l. split; [exact Io|]. split; [apply chain_list; exact C|exact It].
      + intros (s & o & ts & I & R & It). destruct (kind_of _ _ _ _ I T) as (ts' & C & _). rewrite (list_chain _ _ _ C R) in It.
        assert (N : ~ literal o) by (inversion C as [|? ? ? ? ? E1]; subst; [exact (fun f => f)|apply fine_not; exact E1]).
        destruct (forall2_left _ _ _ o F) as (l & Il & C'); [apply to_ord, plain_objects_in; eauto|]. exists l. split; [exact Il|]. rewrite (chain_det g _ _ C' _ C). exact It.
    - intros fuel Fu. unfold list_members. rewrite (E fuel Fu). reflexivity.
  Qed.
  Lemma shape_fine t : is_shape g t -> fine t.
  Proof.
    intros [(c & _ & I)|[(p & o & _ & I)|[(s & p & _ & _ & N)|(s & p & o & l & T & I & R & It)]]].
    - exact (not_literal _ _ _ I).
    - exact (not_literal _ _ _ I).
    - apply fine_not. exact N.
    - assert (K : chained g is_node o) by (destruct T as [<-|[<-|[<-|[]]]]; exact (kind_of _ _ _ _ I ltac:(tab))).
      destruct K as (ts & C & H). rewrite (list_chain _ _ _ C R) in It. destruct (H t It) as (y & _ & N). apply fine_not. exact N.
  Qed.
  Lemma read_candidates : exists l n, NoDup l /\ (forall t, In t l <-> is_shape g t) /\ forall fuel, n <= fuel -> candidates ord g fuel = Ok l.
  Proof.
    destruct (read_members sh_and ltac:(tab)) as (la & na & Ha & Ea). destruct (read_members sh_or ltac:(tab)) as (lo & no & Ho & Eo). destruct (read_members sh_xone ltac:(tab)) as (lx & nx & Hx & Ex).
    eexists. exists (na + no + nx). split; [|split; [|intros fuel F; unfold candidates; rewrite Ea by lia; cbn [bind]; rewrite Eo by lia; cbn [bind]; rewrite Ex by lia; reflexivity]].
    - apply (ord_nodup _ any), tset_nodup.
    - intro t. rewrite (ord_in _ any), tset_in, !in_app_iff, !plain_objects_in, !subjects_with_in, Ha, Ho, Hx.
      rewrite <- !(tmem_spec t), !instances_in. unfold is_shape. split.
      + intro H. repeat (destruct H as [H|H]).
        all: try (left; eexists; split; [|exact H]; unfold shape_classes; tab; fail).
        all: try (right; left; destruct H as (o & H); eexists; exists o; split; [|exact H]; unfold target_predicates; tab; fail).
        all: try (right; right; left; destruct H as (N & s & H); exists s; eexists; split; [|split; [exact H|exact N]]; unfold expects_shape; tab; fail).
        all: try (right; right; right; destruct H as (s & o & l & I & R & It); exists s; eexists; exists o, l; split; [|split; [exact I|split; [exact R|exact It]]]; unfold expects_shapes; tab; fail).
      + intros [(c & T & I)|[(p & o & T & I)|[(s & p & T & I & N)|(s & p & o & l & T & I & R & It)]]]; cbn in T.
        * destruct T as [<-|[<-|[<-|[]]]]; tauto.
        * destruct T as [<-|[<-|[<-|[<-|[]]]]]; eauto 20.
        * destruct T as [<-|[<-|[<-|[<-|[<-|[]]]]]]; eauto 20.
        * destruct T as [<-|[<-|[<-|[]]]]; eauto 25.
  Qed.
  Theorem read_all : ignored_alone g -> exists r n, NoDup (map fst r) /\ (forall t, In t (map fst r) <-> is_shape g t) /\
    (forall k id a, In (k, (id, a)) r -> id = k /\ describes L oc pat sev g k a) /\
    forall fuel, n <= fuel -> parse ord L oc pat sev g fuel = Ok r.
  Proof.
    intro alone. destruct read_candidates as (l & n & ND & M & E).
    destruct (gives_each (fun fuel t => bind (fst (shape ord L oc pat sev g fuel t)) (fun r => Ok (t, r)))
      (fun t r => fst r = t /\ fst (snd r) = t /\ describes L oc pat sev g t (snd (snd r))) (rev l)) as (r & m & F & E').
    { intros t I. apply in_rev, M, shape_fine in I. destruct (read_shape_all t I alone) as (x & f & k & [P D] & Es). exists (t, x), k. split; [cbn; auto|].
      intros fuel Fu. rewrite (Es fuel Fu). reflexivity. }
    assert (X : map fst r = rev l). { clear - F. induction F as [|a b l' r [H _] F IH]; [reflexivity|]. cbn. rewrite H, IH. reflexivity. }
    exists r, (n + m). rewrite X. split; [apply NoDup_rev; exact ND|]. split; [intro t; rewrite <- in_rev; apply M|]. split.
    - intros k id a I. destruct (forall2_right _ _ _ _ F I) as (t & _ & H1 & H2 & H3). cbn in *. subst. auto.
    - intros fuel Fu. unfold parse. rewrite E by lia. cbn [bind]. apply E'. lia.
  Qed.
End Read.
