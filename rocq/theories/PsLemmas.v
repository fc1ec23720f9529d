(** Reading the sentences of the grammar: terminals, facets, node constraints,
    annotations, actions and qualifiers. *)
From Coq Require Import String List ZArith Bool Lia.
From Verif Require Import PsModel PsSpec.
Import ListNotations.
Local Open Scope string_scope.
Local Open Scope list_scope.

(** * Texts *)

(** A text with the white space before it set. *)
Definition setf (b : bool) (i : text) : text :=
  match i with (_, t) :: r => (b, t) :: r | [] => [] end.

Lemma tws0_setf i : tws0 i = setf false i.
Proof. destruct i as [|[b t] r]; reflexivity. Qed.
Lemma setf_setf b c i : setf b (setf c i) = setf b i.
Proof. destruct i as [|[d t] r]; reflexivity. Qed.
Lemma tws0_set b i : tws0 (setf b i) = setf false i.
Proof. destruct i as [|[d t] r]; reflexivity. Qed.
Lemma setf_self i : exists b, i = setf b i.
Proof. destruct i as [|[b t] r]; [exists true|exists b]; reflexivity. Qed.
Lemma setf_cons b t a : setf b ((b, t) :: a) = (b, t) :: a.
Proof. reflexivity. Qed.

Lemma lay_nil a : List.map snd (a : text) = [] -> a = [].
Proof. destruct a; [reflexivity|discriminate]. Qed.
Lemma lay_cons a t ts : List.map snd (a : text) = t :: ts ->
  exists b a', a = (b, t) :: a' /\ List.map snd a' = ts.
Proof.
  destruct a as [|[b u] a']; [discriminate|]. cbn. intros H. injection H as -> H. eauto.
Qed.
Lemma lay_app a xs ys : List.map snd (a : text) = xs ++ ys ->
  exists a1 a2, a = a1 ++ a2 /\ List.map snd a1 = xs /\ List.map snd a2 = ys.
Proof. intros H. apply map_eq_app in H. destruct H as (x & y & -> & <- & <-). eauto. Qed.

(** What a text begins with. *)
Definition starts (P : tok -> Prop) (r : text) : Prop :=
  match r with [] => True | (_, t) :: _ => P t end.
Lemma starts_imp (P Q : tok -> Prop) r : (forall t, P t -> Q t) -> starts P r -> starts Q r.
Proof. destruct r as [|[b t] r]; cbn; auto. Qed.
Lemma starts_app (P : tok -> Prop) a r t ts : List.map snd (a : text) = t :: ts -> P t -> starts P (a ++ r).
Proof. intros H Ht. apply lay_cons in H. destruct H as (b & a' & -> & _). exact Ht. Qed.

(** * Keywords *)

Lemma cut_tag_begins nc k p q : cut_tag nc k p = Some q -> begins k p = true.
Proof.
  revert p. induction k as [|a k IH]; intros p H; [reflexivity|].
  destruct p as [|b p]; cbn in H; [discriminate|].
  destruct (same_char nc a b) eqn:E; [|discriminate].
  cbn. rewrite (IH p H), andb_true_r.
  destruct nc; cbn in E; [exact E|].
  apply Ascii.eqb_eq in E. subst b. apply Ascii.eqb_refl.
Qed.

(** A token that begins with no keyword. *)
Definition words : list string := keywords ++ ["extends"; "abstract"].
Definition quiet (t : tok) : Prop :=
  forall nc k b r, In k words -> word nc k ((b, t) :: r) = Err.
Definition calm (t : tok) : Prop :=
  match t with TWord _ => False | TName p _ => clear p | _ => True end.
Lemma calm_quiet t : calm t -> quiet t.
Proof.
  intros H nc k b r Hk. destruct t as [w|p l|i|x|z|x|x|x|x|x|x|mn x|x]; cbn in H; try contradiction;
    try (destruct b; reflexivity).
  cbn. destruct b; [reflexivity|].
  destruct (cut_tag nc k p) eqn:E; [|reflexivity].
  apply cut_tag_begins in E. unfold words in Hk. apply in_app_or in Hk. destruct Hk as [Hk|Hk].
  - rewrite (H k Hk) in E. discriminate.
  - cbn in Hk. destruct Hk as [<-|[<-|[]]].
    + pose proof (H "EXTENDS") as G. change (begins "extends" p = true) with (begins "EXTENDS" p = true) in E.
      rewrite G in E; [discriminate|]. cbn. tauto.
    + pose proof (H "ABSTRACT") as G. change (begins "abstract" p = true) with (begins "ABSTRACT" p = true) in E.
      rewrite G in E; [discriminate|]. cbn. tauto.
Qed.

Ltac inwords := cbv [words keywords app In]; tauto.
Ltac hush Q :=
  repeat first
    [ rewrite Q by inwords
    | progress cbv [bind map alt opt many1]
    | progress cbn [tws0] ].

(** * Parsers that find nothing *)

Lemma string_facet_quiet t b r : quiet t -> (forall x, t <> TRegex x) -> string_facet ((b, t) :: r) = Err.
Proof.
  intros Q H. unfold string_facet, string_length, a_length. hush Q.
  unfold regexp. destruct b; [reflexivity|]. destruct t; try reflexivity. exfalso. eapply H. reflexivity.
Qed.
Lemma numeric_facet_quiet t b r : quiet t -> numeric_facet ((b, t) :: r) = Err.
Proof.
  intros Q. unfold numeric_facet, numeric_range_lit, numeric_length_int, numeric_range, numeric_length, word_tws.
  cbn [tws0]. hush Q. reflexivity.
Qed.
Lemma xs_facet_quiet t b r : quiet t -> (forall x, t <> TRegex x) -> xs_facet ((b, t) :: r) = Err.
Proof.
  intros Q H. unfold xs_facet, alt. rewrite (string_facet_quiet t b r Q H). apply numeric_facet_quiet, Q.
Qed.
Lemma kind_quiet t b r : quiet t -> non_literal_kind ((b, t) :: r) = Err.
Proof. intros Q. unfold non_literal_kind, word_tws. cbn [tws0]. hush Q. reflexivity. Qed.
Lemma non_lit_quiet t n b r : quiet t -> (forall x, t <> TRegex x) -> non_lit_node_constraint n ((b, t) :: r) = Err.
Proof.
  intros Q H. unfold non_lit_node_constraint, alt, map, many1.
  rewrite (kind_quiet t b r Q), (string_facet_quiet t b r Q H). reflexivity.
Qed.
Lemma qualifier_quiet t n b r : quiet t -> t <> TP PAmp -> qualifier n ((b, t) :: r) = Err.
Proof.
  intros Q H. unfold qualifier, extension, closed, extra_property_set, word_tws, token_tws. cbn [tws0].
  hush Q. unfold char. destruct t as [w|p l|i|x|z|x|x|x|x|x|x|mn x|[]]; try reflexivity. congruence.
Qed.

(** * Loops *)

Lemma many0_reads {A X} (p : parser A) (g : X -> A) (tk : X -> list tok) (F : bool -> Prop) (Q : text -> Prop)
    (xs : list X) (rest : text) :
  (forall x a r b, In x xs -> List.map snd a = tk x -> F b -> Q r ->
     exists b', F b' /\ p (setf b (a ++ r)) = Ok (g x) (setf b' r)) ->
  (forall x a r, In x xs -> List.map snd a = tk x -> Q r -> Q (a ++ r)) ->
  Q rest -> (forall b, F b -> p (setf b rest) = Err) ->
  forall n a b, length xs < n -> List.map snd a = flat_map tk xs -> F b ->
  exists b', F b' /\ many0 n p (setf b (a ++ rest)) = Ok (List.map g xs) (setf b' rest).
Proof.
  intros H1 H2 H3 H4. revert H1 H2. induction xs as [|x xs IH]; intros H1 H2 n a b Hn Ha Fb;
    (destruct n as [|n]; [cbn in Hn; lia|]).
  - apply lay_nil in Ha. subst a. exists b. split; [exact Fb|]. cbn. rewrite (H4 b Fb). reflexivity.
  - cbn [flat_map] in Ha. apply lay_app in Ha. destruct Ha as (a1 & a2 & -> & Ha1 & Ha2).
    rewrite <- app_assoc.
    assert (Hq : Q (a2 ++ rest)).
    { assert (G : forall ys a2, (forall y, In y ys -> In y (x :: xs)) -> List.map snd a2 = flat_map tk ys -> Q (a2 ++ rest)).
      { induction ys as [|y ys IHy]; intros a3 Hin Ha3.
        - apply lay_nil in Ha3. subst a3. exact H3.
        - cbn [flat_map] in Ha3. apply lay_app in Ha3. destruct Ha3 as (a4 & a5 & -> & Ha4 & Ha5).
          rewrite <- app_assoc. apply (H2 y); [apply Hin; left; reflexivity|exact Ha4|].
          apply IHy; [intros z Hz; apply Hin; right; exact Hz|exact Ha5]. }
      apply (G xs); [intros y Hy; right; exact Hy|exact Ha2]. }
    destruct (H1 x a1 (a2 ++ rest) b (or_introl eq_refl) Ha1 Fb Hq) as (b1 & Fb1 & E1).
    destruct (IH (fun y a r b Hy => H1 y a r b (or_intror Hy)) (fun y a r Hy => H2 y a r (or_intror Hy))
                n a2 b1 ltac:(cbn in Hn; lia) Ha2 Fb1) as (b2 & Fb2 & E2).
    exists b2. split; [exact Fb2|]. cbn [many0]. rewrite E1, E2. reflexivity.
Qed.

Lemma many1_reads {A X} (p : parser A) (g : X -> A) (tk : X -> list tok) (F : bool -> Prop) (Q : text -> Prop)
    (xs : list X) (rest : text) :
  (forall x a r b, In x xs -> List.map snd a = tk x -> F b -> Q r ->
     exists b', F b' /\ p (setf b (a ++ r)) = Ok (g x) (setf b' r)) ->
  (forall x a r, In x xs -> List.map snd a = tk x -> Q r -> Q (a ++ r)) ->
  Q rest -> (forall b, F b -> p (setf b rest) = Err) ->
  xs <> [] ->
  forall n a b, length xs <= n -> List.map snd a = flat_map tk xs -> F b ->
  exists b', F b' /\ many1 n p (setf b (a ++ rest)) = Ok (List.map g xs) (setf b' rest).
Proof.
  intros H1 H2 H3 H4 Hne n a b Hn Ha Fb.
  pose proof (many0_reads p g tk F Q xs rest H1 H2 H3 H4 (S n) a b ltac:(lia) Ha Fb) as (b' & Fb' & E).
  exists b'. split; [exact Fb'|]. unfold many1.
  destruct xs as [|x xs]; [congruence|]. cbn [many0] in E.
  destruct (p (setf b (a ++ rest))); cbn in E; try discriminate. exact E.
Qed.

Definition anyflag (b : bool) : Prop := True.
Definition noflag (b : bool) : Prop := b = false.

(** * Facets *)

Lemma usize_id z : usize z -> as_usize z = z.
Proof. intros H. apply Z.mod_small. exact H. Qed.
Lemma i32_id z : i32 z -> as_i32 z = z.
Proof. unfold i32, as_i32. intros H. rewrite Z.mod_small; lia. Qed.
Lemma usize_pos z : usize z -> (z <? 0)%Z = false.
Proof. intros H. apply Z.ltb_ge. apply H. Qed.

Lemma pos_integer_reads z b r : usize z -> pos_integer (tws0 ((b, TInt z) :: r)) = Ok z r.
Proof. intros H. cbn. rewrite (usize_pos z H), (usize_id z H). reflexivity. Qed.

(** A facet of strings, without white space before it. *)
Lemma string_facet_reads f a r : is_string f -> facet_fits f -> List.map snd a = facet_toks f ->
  string_facet (setf false (a ++ r)) = Ok f r.
Proof.
  intros Hs Hf Ha. destruct f as [[]|x|k v|k z]; cbn in Hs; try contradiction; cbn in Ha;
    apply lay_cons in Ha; destruct Ha as (b1 & a1 & -> & Ha);
    try (apply lay_cons in Ha; destruct Ha as (b2 & a2 & -> & Ha)); apply lay_nil in Ha; subst;
    cbn [setf app]; unfold string_facet, string_length, alt, a_length, map, bind; cbn [word cut_tag same_char];
    try (cbn; reflexivity);
    cbv -[pos_integer as_usize Z.ltb tws0]; rewrite (pos_integer_reads _ _ _ Hf); reflexivity.
Qed.
(** A numeric facet, after any white space. *)
Lemma numeric_facet_reads f a r b : is_numeric f -> facet_fits f -> List.map snd a = facet_toks f ->
  numeric_facet (setf b (a ++ r)) = Ok f r.
Proof.
  intros Hs Hf Ha. destruct f as [k z|x|k v|k z]; try (exfalso; apply Hs; exact Logic.I); destruct k; cbn in Ha;
    apply lay_cons in Ha; destruct Ha as (b1 & a1 & -> & Ha);
    try (apply lay_cons in Ha; destruct Ha as (b2 & a2 & -> & Ha)); apply lay_nil in Ha; subst;
    cbn [setf app]; try (destruct v; reflexivity);
    unfold numeric_facet, alt, numeric_range_lit, numeric_length_int; cbv -[as_usize];
    rewrite (usize_id _ Hf); reflexivity.
Qed.
Lemma string_facet_numeric f a r b : is_numeric f -> List.map snd a = facet_toks f ->
  string_facet (setf b (a ++ r)) = Err.
Proof.
  intros Hs Ha. destruct f as [k z|x|k v|k z]; try (exfalso; apply Hs; exact Logic.I); destruct k; cbn in Ha;
    apply lay_cons in Ha; destruct Ha as (b1 & a1 & -> & Ha); cbn [setf app]; destruct b; reflexivity.
Qed.
Lemma xs_facet_numeric f a r b : is_numeric f -> facet_fits f -> List.map snd a = facet_toks f ->
  xs_facet (setf b (a ++ r)) = Ok f r.
Proof.
  intros Hs Hf Ha. unfold xs_facet, alt. rewrite (string_facet_numeric f a r b Hs Ha).
  apply numeric_facet_reads; assumption.
Qed.
Lemma facet_dec f : is_string f \/ is_numeric f.
Proof. destruct f; [left|left|right|right]; cbn; try exact Logic.I; intros []. Qed.
Lemma xs_facet_reads f a r : facet_fits f -> List.map snd a = facet_toks f ->
  xs_facet (setf false (a ++ r)) = Ok f r.
Proof.
  intros Hf Ha. destruct (facet_dec f) as [Hs|Hs].
  - unfold xs_facet, alt. rewrite (string_facet_reads f a r Hs Hf Ha). reflexivity.
  - apply xs_facet_numeric; assumption.
Qed.

(** The texts after which no facet follows. *)
Definition no_facet (r : text) : Prop := forall b, xs_facet (setf b r) = Err.
Lemma no_facet_string r : no_facet r -> forall b, string_facet (setf b r) = Err.
Proof.
  intros H b. specialize (H b). unfold xs_facet, alt in H. destruct (string_facet (setf b r)); congruence.
Qed.
Lemma no_facet_numeric r : no_facet r -> forall b, numeric_facet (setf b r) = Err.
Proof.
  intros H b. pose proof (no_facet_string r H b) as E. specialize (H b). unfold xs_facet, alt in H.
  rewrite E in H. exact H.
Qed.

Lemma numeric_list (p : parser facet) fs rest n a b :
  (forall f a r b, is_numeric f -> facet_fits f -> List.map snd a = facet_toks f -> p (setf b (a ++ r)) = Ok f r) ->
  (forall b, p (setf b rest) = Err) ->
  Forall is_numeric fs -> Forall facet_fits fs -> length fs < n ->
  List.map snd a = flat_map facet_toks fs ->
  exists b', many0 n p (setf b (a ++ rest)) = Ok fs (setf b' rest).
Proof.
  intros Hp He Hnum Hfit Hn Ha. rewrite Forall_forall in Hnum, Hfit.
  destruct (many0_reads p (fun f => f) facet_toks anyflag (fun _ => True) fs rest) with (n := n) (a := a) (b := b)
    as (b' & _ & E); try exact Logic.I; try assumption; auto.
  - intros f a' r b0 Hin Ha' _ _. destruct (setf_self r) as [b1 E1]. exists b1. split; [exact Logic.I|].
    rewrite <- E1. apply Hp; auto.
  - exists b'. rewrite E, map_id. reflexivity.
Qed.

Lemma xs_facets_reads fs rest n a : plain_facets fs -> no_facet rest -> length fs < n ->
  List.map snd a = flat_map facet_toks fs ->
  exists b, many0 n xs_facet (setf false (a ++ rest)) = Ok fs (setf b rest).
Proof.
  intros (Hfit & Hnum) Hno Hn Ha. destruct fs as [|f fs].
  - apply lay_nil in Ha. subst a. exists false. destruct n; [cbn in Hn; lia|]. cbn. rewrite (Hno false). reflexivity.
  - cbn [flat_map] in Ha. apply lay_app in Ha. destruct Ha as (a1 & a2 & -> & Ha1 & Ha2).
    rewrite <- app_assoc. destruct n as [|n]; [cbn in Hn; lia|]. cbn [many0].
    inversion Hfit as [|? ? Hf Hfs]; subst.
    rewrite (xs_facet_reads f a1 (a2 ++ rest) Hf Ha1).
    destruct (setf_self (a2 ++ rest)) as [b0 E0]. rewrite E0.
    destruct (numeric_list xs_facet fs rest n a2 b0 xs_facet_numeric Hno Hnum Hfs ltac:(cbn in Hn; lia) Ha2) as [b E].
    rewrite E. exists b. reflexivity.
Qed.

Lemma string_one fs : Forall is_string fs -> Forall is_numeric (tl fs) -> length fs <= 1.
Proof.
  intros H1 H2. destruct fs as [|f [|g fs]]; cbn; try lia.
  inversion H1 as [|? ? _ H3]; subst. inversion H3 as [|? ? H4 _]; subst.
  inversion H2 as [|? ? H5 _]; subst. contradiction.
Qed.
Lemma string_facets_reads fs rest n a : plain_facets fs -> Forall is_string fs -> no_facet rest -> length fs < n ->
  List.map snd a = flat_map facet_toks fs ->
  exists b, many0 n string_facet (setf false (a ++ rest)) = Ok fs (setf b rest).
Proof.
  intros (Hfit & Hnum) Hstr Hno Hn Ha. pose proof (string_one fs Hstr Hnum) as Hl.
  destruct fs as [|f [|g fs]]; [| |cbn in Hl; lia].
  - apply lay_nil in Ha. subst a. exists false. destruct n; [cbn in Hn; lia|].
    cbn [many0 app]. rewrite (no_facet_string rest Hno false). reflexivity.
  - cbn [flat_map] in Ha. rewrite app_nil_r in Ha. destruct n as [|[|n]]; [cbn in Hn; lia|cbn in Hn; lia|].
    inversion Hfit; inversion Hstr; subst. cbn [many0]. rewrite (string_facet_reads f) by assumption.
    destruct (setf_self rest) as [b E].
    assert (E1 : string_facet rest = Err) by (rewrite E; apply no_facet_string, Hno).
    rewrite E1. exists b. rewrite <- E. reflexivity.
Qed.

(** * Terminals *)

Lemma iri_reads r i : r <> RType -> iri ((false, iri_tok r) :: i) = Ok r i.
Proof. destruct r; [reflexivity|reflexivity|congruence]. Qed.
Lemma predicate_reads r i : predicate ((false, iri_tok r) :: i) = Ok r i.
Proof. destruct r; reflexivity. Qed.
Lemma label_reads l i : label_ok l -> a_label ((false, label_tok l) :: i) = Ok l i.
Proof.
  intros H. unfold label_ok in H. destruct l as [[| |]|]; try reflexivity. congruence.
Qed.

(** * Annotations and actions *)

Lemma annotation_reads x a r b : annot_ok x -> List.map snd a = annot_toks x ->
  annotation (setf b (a ++ r)) = Ok x r.
Proof.
  destruct x as [p v]. intros Hx Ha. unfold annot_toks in Ha. cbn [fst snd] in Ha.
  apply lay_cons in Ha. destruct Ha as (b1 & a1 & -> & Ha).
  apply lay_cons in Ha. destruct Ha as (b2 & a2 & -> & Ha).
  apply lay_cons in Ha. destruct Ha as (b3 & a3 & -> & Ha). apply lay_nil in Ha. subst a3.
  cbn [app setf]. unfold annotation, token_tws. cbn [tws0 char punct_eqb bind].
  unfold cut. rewrite predicate_reads. cbn [bind].
  destruct v as [u|l]; [|reflexivity].
  destruct u; try reflexivity. exfalso. apply Hx. reflexivity.
Qed.
Lemma annotation_none t b r : t <> TP PSlashes -> annotation ((b, t) :: r) = Err.
Proof.
  intros H. unfold annotation, token_tws. cbn [tws0]. unfold char.
  destruct t as [w|p l|i|x|z|x|x|x|x|x|x|mn x|[]]; try reflexivity. congruence.
Qed.
Lemma annotations_read an rest n a b : Forall annot_ok an -> length an < n ->
  starts (fun t => t <> TP PSlashes) rest -> List.map snd a = flat_map annot_toks an ->
  exists b', annotations n (setf b (a ++ rest)) = Ok an (setf b' rest).
Proof.
  intros Hok Hn Hs Ha. rewrite Forall_forall in Hok.
  destruct (many0_reads annotation (fun f => f) annot_toks anyflag (fun _ => True) an rest) with (n := n) (a := a) (b := b)
    as (b' & _ & E); try exact Logic.I; try assumption; auto.
  - intros f a' r b0 Hin Ha' _ _. destruct (setf_self r) as [b1 E1]. exists b1. split; [exact Logic.I|].
    rewrite <- E1. apply annotation_reads; auto.
  - intros b0 _. destruct rest as [|[c t] r]; [reflexivity|]. apply annotation_none. exact Hs.
  - exists b'. unfold annotations. rewrite E, map_id. reflexivity.
Qed.

Lemma code_reads x a r : act_ok x -> List.map snd a = act_toks x ->
  code_decl (setf false (a ++ r)) = Ok x (setf false r).
Proof.
  destruct x as [p v]. intros Hx Ha. unfold act_toks in Ha. cbn [fst snd] in Ha.
  apply lay_cons in Ha. destruct Ha as (b1 & a1 & -> & Ha).
  apply lay_cons in Ha. destruct Ha as (b2 & a2 & -> & Ha).
  apply lay_cons in Ha. destruct Ha as (b3 & a3 & -> & Ha). apply lay_nil in Ha. subst a3.
  cbn [app setf]. unfold code_decl. cbn [char punct_eqb bind tws0].
  unfold cut. rewrite iri_reads by exact Hx. cbn [bind tws0].
  destruct v as [u|]; cbn; rewrite tws0_setf; reflexivity.
Qed.
Lemma code_none t b r : t <> TP PPercent -> code_decl ((b, t) :: r) = Err.
Proof.
  intros H. unfold code_decl, char. destruct b; [reflexivity|].
  destruct t as [w|p l|i|x|z|x|x|x|x|x|x|mn x|[]]; try reflexivity. congruence.
Qed.
Lemma codes_read ac rest n a : Forall act_ok ac -> length ac < n ->
  starts (fun t => t <> TP PPercent) rest -> List.map snd a = flat_map act_toks ac ->
  many0 n code_decl (setf false (a ++ rest)) = Ok ac (setf false rest).
Proof.
  intros Hok Hn Hs Ha. rewrite Forall_forall in Hok.
  destruct (many0_reads code_decl (fun f => f) act_toks noflag (fun _ => True) ac rest) with (n := n) (a := a) (b := false)
    as (b' & Fb & E); try exact Logic.I; try assumption; auto.
  - intros f a' r b0 Hin Ha' -> _. exists false. split; [reflexivity|]. apply code_reads; auto.
  - intros b0 _. destruct rest as [|[c t] r]; [reflexivity|]. apply code_none. exact Hs.
  - reflexivity.
  - rewrite E, map_id, Fb. reflexivity.
Qed.
Lemma some_some {A} (l : list A) : some_list l = some l.
Proof. reflexivity. Qed.
Lemma actions_read ac rest n a : Forall act_ok ac -> length ac < n ->
  starts (fun t => t <> TP PPercent) rest -> List.map snd a = flat_map act_toks ac ->
  semantic_actions n (setf false (a ++ rest)) = Ok (some ac) (setf false rest).
Proof.
  intros Hok Hn Hs Ha. unfold semantic_actions, map. rewrite (codes_read ac rest n a Hok Hn Hs Ha). reflexivity.
Qed.

(** Annotations followed by actions. *)
Lemma attributes_read an ac rest n a b : Forall annot_ok an -> Forall act_ok ac ->
  length an < n -> length ac < n ->
  starts (fun t => t <> TP PSlashes /\ t <> TP PPercent) rest ->
  List.map snd a = flat_map annot_toks an ++ flat_map act_toks ac ->
  exists r', annotations n (setf b (a ++ rest)) = Ok an r'
             /\ semantic_actions n (tws0 r') = Ok (some ac) (setf false rest).
Proof.
  intros Han Hac Hn1 Hn2 Hs Ha. apply lay_app in Ha. destruct Ha as (a1 & a2 & -> & Ha1 & Ha2).
  rewrite <- app_assoc.
  destruct (annotations_read an (a2 ++ rest) n a1 b Han Hn1) as [b' E]; [|exact Ha1|].
  - destruct ac as [|x ac]; cbn in Ha2.
    + apply lay_nil in Ha2. subst a2. eapply starts_imp; [|exact Hs]. intros t Ht. apply Ht.
    + eapply starts_app; [exact Ha2|discriminate].
  - rewrite E. exists (setf b' (a2 ++ rest)). split; [reflexivity|]. rewrite tws0_set.
    apply actions_read; try assumption. eapply starts_imp; [|exact Hs]. intros t Ht. apply Ht.
Qed.

(** * Cardinalities *)

Lemma card_reads c rest a : card_fits c ->
  starts (fun t => ~ In t [TP PStar; TP PPlus; TP PQuest] /\ (forall mn b, t <> TRange mn b)) rest ->
  List.map snd a = card_toks c ->
  opt cardinality (setf false (a ++ rest)) =
    Ok (match fst (card_tree c), snd (card_tree c) with Some x, Some y => Some (x, y) | _, _ => None end)
       (match c with Some _ => rest | None => setf false rest end).
Proof.
  intros Hf Hs Ha. destruct c as [[| | |mn b]|]; cbn in Ha.
  1-4: apply lay_cons in Ha; destruct Ha as (b1 & a1 & -> & Ha); apply lay_nil in Ha; subst a1.
  1-3: reflexivity.
  - destruct b; cbn in *; unfold opt, cardinality, alt, map; cbn -[as_i32];
      rewrite ?(i32_id mn) by tauto; try reflexivity. rewrite i32_id by tauto. reflexivity.
  - apply lay_nil in Ha. subst a. cbn [app]. destruct rest as [|[d t] r]; [reflexivity|].
    cbn [starts] in Hs. destruct Hs as [H1 H2]. cbn [In] in H1.
    unfold opt, cardinality, alt, map, char, repeat_range. cbn [setf].
    destruct t as [w|p l|i|x|z|x|x|x|x|x|x|mn x|[]]; try reflexivity;
      try (exfalso; apply H1; tauto). exfalso. eapply H2. reflexivity.
Qed.

(** * Qualifiers *)

Definition qual_val (q : cqual) : qual :=
  match q with CClosed => QClosed | CExtra ps => QExtra ps | CExtends _ l => QExtends l end.

(** What may follow a list of predicates. *)
Definition no_predicate (t : tok) : Prop :=
  match t with TName _ _ | TIri _ => False | TWord w => cut_tag false "a" w = None | _ => True end.
Lemma predicate_none t b r : no_predicate t -> predicate ((b, t) :: r) = Err.
Proof.
  intros H. destruct b, t; try reflexivity; try contradiction.
  unfold predicate, alt, rdf_type, map, iri, word. unfold no_predicate in H. rewrite H. reflexivity.
Qed.
Lemma extra_reads ps rest n a : ps <> [] -> length ps <= n -> starts no_predicate rest ->
  List.map snd a = List.map iri_tok ps ->
  cut (many1 n (fun i => bind (predicate i) (fun p r => Ok p (tws0 r)))) (setf false (a ++ rest))
    = Ok ps (setf false rest).
Proof.
  intros Hne Hn Hs Ha.
  assert (Ha2 : List.map snd a = flat_map (fun p => [iri_tok p]) ps)
    by (rewrite Ha; clear; induction ps as [|p ps IH]; cbn; [|rewrite IH]; reflexivity).
  destruct (many1_reads (fun i => bind (predicate i) (fun p r => Ok p (tws0 r))) (fun p => p)
              (fun p => [iri_tok p]) noflag (fun _ => True) ps rest) with (n := n) (a := a) (b := false)
    as (b' & Fb & E); try exact Logic.I; try assumption; auto.
  - intros p a' r b Hin Ha' -> _. apply lay_cons in Ha'. destruct Ha' as (c & a1 & -> & Ha').
    apply lay_nil in Ha'. subst a1. exists false. split; [reflexivity|].
    cbn [app setf]. rewrite predicate_reads. cbn [bind]. rewrite tws0_setf. reflexivity.
  - intros b _. destruct rest as [|[c t] r]; [reflexivity|]. cbn [setf].
    rewrite (predicate_none t b r Hs). reflexivity.
  - reflexivity.
  - unfold cut. rewrite E, map_id, Fb. reflexivity.
Qed.

(** The first tokens of qualifiers, and the brace after them. *)
Definition qual_start (t : tok) : Prop :=
  t = TP PLBrace \/ t = TP PAmp \/ In t [TWord "CLOSED"; TWord "EXTRA"; TWord "EXTENDS"].
Lemma qual_start_predicate t : qual_start t -> no_predicate t.
Proof.
  intros [->|[->|H]]; try exact Logic.I. cbn in H. destruct H as [<-|[<-|[<-|[]]]]; reflexivity.
Qed.
Lemma qual_toks_start q : exists t ts, qual_toks q = t :: ts /\ qual_start t.
Proof.
  unfold qual_start. destruct q as [|ps|[] l]; cbn; eauto 10.
Qed.

Lemma qualifier_reads q rest n a b : qual_ok q -> length (qual_toks q) <= n -> starts qual_start rest ->
  List.map snd a = qual_toks q ->
  exists b', qualifier n (setf b (a ++ rest)) = Ok (qual_val q) (setf b' rest).
Proof.
  intros Hq Hn Hs Ha. destruct q as [|ps|[] l]; cbn [qual_toks] in Ha;
    apply lay_cons in Ha; destruct Ha as (b1 & a1 & -> & Ha).
  - apply lay_nil in Ha. subst a1. exists false. destruct rest as [|[c t] r]; reflexivity.
  - exists false. cbn [app setf]. unfold qualifier, alt.
    replace (extension ((b, TWord "EXTRA") :: a1 ++ rest)) with (@Err qual) by reflexivity.
    replace (closed ((b, TWord "EXTRA") :: a1 ++ rest)) with (@Err qual) by reflexivity.
    unfold extra_property_set.
    replace (word_tws false "EXTRA" ((b, TWord "EXTRA") :: a1 ++ rest)) with (Ok tt (tws0 (a1 ++ rest))) by reflexivity.
    cbn [bind]. unfold map. rewrite tws0_setf, (extra_reads ps); [reflexivity|exact Hq| | |exact Ha].
    + cbn in Hn. rewrite map_length in Hn. lia.
    + eapply starts_imp; [|exact Hs]. apply qual_start_predicate.
  - apply lay_cons in Ha. destruct Ha as (b2 & a2 & -> & Ha). apply lay_nil in Ha. subst a2.
    destruct (setf_self rest) as [c E]. exists c. rewrite <- E. reflexivity.
  - apply lay_cons in Ha. destruct Ha as (b2 & a2 & -> & Ha). apply lay_nil in Ha. subst a2.
    destruct (setf_self rest) as [c E]. exists c. rewrite <- E. reflexivity.
Qed.

Lemma qual_len q qs : In q qs -> length (qual_toks q) <= length (flat_map qual_toks qs).
Proof.
  induction qs as [|x qs IH]; [intros []|]. intros [->|H]; cbn; rewrite app_length; [lia|].
  specialize (IH H). lia.
Qed.
Lemma quals_len qs : length qs <= length (flat_map qual_toks qs).
Proof.
  induction qs as [|q qs IH]; cbn; [lia|]. rewrite app_length.
  destruct (qual_toks_start q) as (t & ts & E & _). rewrite E. cbn. lia.
Qed.
Lemma qualifiers_read qs rest n a b : Forall qual_ok qs -> length (flat_map qual_toks qs) < n ->
  (exists c r, rest = (c, TP PLBrace) :: r) ->
  List.map snd a = flat_map qual_toks qs ->
  exists b', qualifiers n (setf b (a ++ rest)) = Ok (List.map qual_val qs) (setf b' rest).
Proof.
  intros Hok Hn (c & r & ->) Ha. rewrite Forall_forall in Hok.
  destruct (many0_reads (qualifier n) qual_val qual_toks anyflag (starts qual_start) qs ((c, TP PLBrace) :: r))
    with (n := n) (a := a) (b := b) as (b' & Fb & E); try exact Logic.I; try assumption.
  - intros q a' r' b0 Hin Ha' _ Hr. destruct (qualifier_reads q r' n a' b0) as [b1 E1]; auto.
    + apply qual_len in Hin. lia.
    + exists b1. split; [exact Logic.I|exact E1].
  - intros q a' r' _ Ha' _. destruct (qual_toks_start q) as (t & ts & Et & Ht). rewrite Et in Ha'.
    eapply starts_app; eassumption.
  - left. reflexivity.
  - intros b0 _. cbn [setf]. apply qualifier_quiet; [|discriminate]. apply calm_quiet. exact Logic.I.
  - pose proof (quals_len qs). lia.
  - exists b'. exact E.
Qed.

Lemma closed_val qs : closed_of (List.map qual_val qs) = closed_tree qs.
Proof.
  unfold closed_of, closed_tree. f_equal. induction qs as [|[|ps|b l] qs IH]; cbn; auto.
Qed.
Lemma extra_val qs : extra_of (List.map qual_val qs) = extra_tree qs.
Proof.
  unfold extra_of, extra_tree. induction qs as [|[|ps|b l] qs IH]; cbn; congruence.
Qed.
Lemma extends_val qs : extends_of (List.map qual_val qs) = extends_tree qs.
Proof.
  unfold extends_of, extends_tree. induction qs as [|[|ps|b l] qs IH]; cbn; congruence.
Qed.
