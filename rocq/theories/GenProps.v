(* Generating data from ShEx schemas: properties. *)
From Coq Require Import List String Ascii Bool ZArith NArith QArith Permutation Lia Decimal DecimalString.
Import ListNotations.
From Verif Require Import SjModel CoModel CoSpec SqModel SqSpec SqLemmas GenModel GenSpec GenLemmas GenNames GenEntity GenGraph GenWhole.
Open Scope string_scope.
Open Scope Z_scope.

(* ------------------------------------------------------------------ *)
(* How many values, and how many relationships                          *)

Theorem C90_count checks rand st mn mx idx : can_be_met mn mx -> 0 <= idx ->
  forall n, exists k n', value_count checks rand st false mn mx idx n = Ok (k, n') /\ 0 <= k /\ between mn mx k.
Proof. intros H I n. apply value_count_between; assumption. Qed.
Print Assumptions C90_count.
Theorem C90_relationships checks rand st mn mx targets idx : enough_targets mn mx targets -> 0 <= idx ->
  forall n, exists k n', relationship_count checks rand st mn mx targets idx n = Ok (k, n') /\ 0 <= k <= targets /\ between mn mx k.
Proof. intros H I n. apply relationship_count_between; assumption. Qed.
Print Assumptions C90_relationships.

(* The data of easy schemas: the full statement asks for good data of every schema. *)
Theorem C90_conforms_partial {L : lib} {G : glib} (ord : forall A : Type, list (string * A) -> list (string * A)) checks rand cfg other_facet in_set other_expr ds :
  (forall A l, Permutation (ord A l) l) -> easy_schema ds -> whole_entities cfg -> texts -> divides cfg ->
  exists ts, generate_shex ord checks rand cfg ds = Ok ts /\ good_data other_facet in_set other_expr cfg ds ts.
Proof. intros. apply good; assumption. Qed.
Print Assumptions C90_conforms_partial.

(* ------------------------------------------------------------------ *)
(* Examples                                                             *)

#[local] Instance l0 : lib := {| dec := unit; dbl := unit; fnum := Z; show_dec := fun _ => ""; parse_dec := fun _ => None; show_dbl := fun _ => ""; parse_dbl := fun _ => None;
  write_fnum := fun z => JInt z; read_fnum := fun _ => Err; iri_ok := fun _ => true; lang_new := fun s => Some s |}.
#[local] Instance g0 : glib := {| show_fnum := (show_z : @fnum l0 -> string);
  parse_i64 := fun s => match NilZero.int_of_string s with Some i => Some (Z.of_int i) | None => None end;
  parse_f64 := fun _ => None; text := fun _ _ _ _ => Ok "t" |}.
Definition ord0 (A : Type) (l : list (string * A)) : list (string * A) := l.
Definition rand0 (n : nat) : N := 3%N.
Definition constraint p ve mn mx : texpr := TTriple None None None (Iri p) ve mn mx None None.
Definition node k d fs vs : option sexpr := Some (SNode {| n_kind := k; n_datatype := option_map Iri d; n_facets := fs; n_values := vs |}).
Definition typed dt : option sexpr := node None (Some (xsd dt)) None None.
Definition both l : texpr := TEach None l None None None None.
Definition shape_decl id closed te : decl := {| d_type := ""; d_id := LIri (Iri id); d_abstract := false; d_expr := SShape closed None te None None None |}.
Definition with_strategy st : config :=
  {| c_count := 1; c_distribution := Equal; c_strategy := st; c_fill := 1; c_ignore := false; c_limit := 0; c_sel := SelAll;
     c_variance := 0; c_excluded := []; c_overrides := [] |}.
Lemma whole0 st : whole_entities (with_strategy st). Proof. repeat split; auto; destruct H. Qed.
Lemma divides0 st : divides (with_strategy st). Proof. split; [cbn; lia|exact Logic.I]. Qed.
Lemma texts0 : texts. Proof. intros d p r _. exists "t". reflexivity. Qed.

Definition people : list decl :=
  [shape_decl "P" None (Some (both [constraint "name" (typed "string") None None;
     constraint "age" (node None (Some (xsd "integer")) (Some [FMinIn 18; FMaxEx 30]) None) (Some 0) (Some 1)]));
   shape_decl "Q" None (Some (constraint "ok" (typed "boolean") (Some 1) (Some 3)))].
Example C90_met : easy_schema people /\ whole_entities (default_config 3) /\ texts /\ divides (default_config 3) /\
  generate_shex ord0 true rand0 (default_config 3) people =
    Ok [{| tr_s := "P-1"; tr_p := rdf_type; tr_o := TmIri "P" |}; {| tr_s := "P-1"; tr_p := "name"; tr_o := TmLit "t" (xsd "string") |};
        {| tr_s := "P-2"; tr_p := rdf_type; tr_o := TmIri "P" |}; {| tr_s := "P-2"; tr_p := "age"; tr_o := TmLit "21" (xsd "integer") |};
        {| tr_s := "P-2"; tr_p := "name"; tr_o := TmLit "t" (xsd "string") |};
        {| tr_s := "Q-1"; tr_p := rdf_type; tr_o := TmIri "Q" |}; {| tr_s := "Q-1"; tr_p := "ok"; tr_o := TmLit "false" (xsd "boolean") |}].
Proof.
  assert (E : forall n, n <> the_type -> exists i, Iri n = Iri i /\ i <> the_type) by eauto.
  assert (B : forall d, In (xsd d) known_datatypes -> easy_node {| n_kind := None; n_datatype := Some (Iri (xsd d)); n_facets := None; n_values := None |}).
  { intros d I. exists (xsd d). cbn. tauto. }
  split; [split|split; [|split; [|split]]].
  - assert (N : forall z, - 2 ^ 31 <= z < 2 ^ 31 -> @number l0 g0 z z).
    { intros z _. unfold number. cbn. destruct (show_z_denotes z) as (i & -> & <-). reflexivity. }
    constructor; [|constructor; [|constructor]].
    + split; [exists "P"; auto|]. eexists None, None, _, None, None. split; [reflexivity|]. split; [discriminate|]. intros te' H. injection H as <-. cbn. split.
      * split; [split; cbn; lia|]. repeat split; try discriminate; try (apply E; discriminate); try (cbn; lia).
        -- eexists. split; [reflexivity|]. apply B. cbn. tauto.
        -- eexists. split; [reflexivity|]. exists (xsd "integer"). cbn. repeat split; auto. right. split; [reflexivity|]. exists 18, 29. split; [|unfold small; lia].
           apply A_both; [left; exists 18; split; [reflexivity|apply N; lia]|right; exists 30, 30; split; [reflexivity|]; split; [apply N; lia|reflexivity]].
      * repeat constructor; cbn; intuition discriminate.
    + split; [exists "Q"; auto|]. eexists None, None, _, None, None. split; [reflexivity|]. split; [discriminate|]. intros te' H. injection H as <-. cbn. split.
      * repeat split; try discriminate; try (apply E; discriminate); try (cbn; lia). eexists. split; [reflexivity|]. apply B. cbn. tauto.
      * repeat constructor; cbn; intuition discriminate.
  - repeat constructor; cbn; intuition discriminate.
  - repeat split; auto; destruct H.
  - exact texts0.
  - split; [cbn; lia|exact Logic.I].
  - vm_compute. reflexivity.
Qed.
Example C90_count_met : can_be_met (Some 2) (Some 4) /\ can_be_met (Some 3) (Some (-1)) /\
  value_count true rand0 Balanced false (Some 2) (Some 4) 1 0%nat = Ok (3, 0%nat) /\ value_count true rand0 Maximum false (Some 3) (Some (-1)) 0 0%nat = Ok (5, 0%nat).
Proof. unfold can_be_met. repeat split; lia. Qed.
Example C90_relationships_met : enough_targets (Some 1) (Some 9) 4 /\ relationship_count true rand0 Maximum (Some 1) (Some 9) 4 0 0%nat = Ok (4, 0%nat).
Proof. unfold enough_targets. repeat split; lia. Qed.

(* ------------------------------------------------------------------ *)
(* Where the data are not as they should be                             *)

Definition term_dec (a b : term) : {a = b} + {a <> b}. Proof. decide equality; apply string_dec. Defined.
Definition arc_dec (a b : string * term) : {a = b} + {a <> b}. Proof. decide equality; [apply term_dec|apply string_dec]. Defined.
Definition arcs_of (ts : list triple) (n : string) : list (string * term) :=
  nodup arc_dec (List.map (fun t => (tr_p t, tr_o t)) (filter (fun t => String.eqb (tr_s t) n) ts)).
Lemma arcs_outgoing ts n : outgoing (arc ts) (TmIri n) (arcs_of ts n).
Proof.
  split; [apply NoDup_nodup|]. intros p o. unfold arcs_of. rewrite nodup_In, in_map_iff. split.
  - intros ([s p' o'] & E & I). cbn in E. injection E as -> ->. apply filter_In in I. cbn in I. destruct I as [I E]. apply String.eqb_eq in E. subst s. exists n. auto.
  - intros (s & E & I). injection E as <-. eexists. split; [|apply filter_In; split; [exact I|apply String.eqb_refl]]. reflexivity.
Qed.
Lemma filter_all {A} (f : A -> bool) l : (forall a, In a l -> f a = true) -> filter f l = l.
Proof. induction l as [|a l IH]; cbn; intro H; [reflexivity|]. rewrite (H a) by auto. f_equal. apply IH. auto. Qed.
Lemma filter_none {A} (f : A -> bool) l : (forall a, In a l -> f a = false) -> filter f l = [].
Proof. induction l as [|a l IH]; cbn; intro H; [reflexivity|]. rewrite (H a) by auto. apply IH. auto. Qed.
Lemma filter_permutation {A} (f : A -> bool) l m : Permutation l m -> Permutation (filter f l) (filter f m).
Proof.
  induction 1 as [|x l m P IH|x y l|l m k P1 IH1 P2 IH2]; cbn; [constructor| | |etransitivity; eassumption].
  - destruct (f x); [constructor|]; exact IH.
  - destruct (f x), (f y); try reflexivity. apply perm_swap.
Qed.

(* All values of a property with one constraint have to be counted. *)
Lemma right_number value closed id neg inv p ve mn mx a x (arcs : list (string * term)) :
  has_shape value [] closed None (Some (TTriple id neg inv (Iri p) ve mn mx a x)) arcs ->
  within mn mx (List.length (filter (fun t => String.eqb (fst t) p) arcs)) /\ forall o, In (p, o) arcs -> value_ok value ve o.
Proof.
  intros (taken & rest & P & M & R). cbn [matches] in M. destruct M as (_ & _ & W & F). rewrite Forall_forall in F.
  assert (Nr : forall t, In t rest -> fst t <> p).
  { intros [i o] I E. cbn in E. subst i. destruct (R _ _ I) as [R1 _]. destruct (R1 _ (Iri p) ve eq_refl) as [(l & y & H & _) _]; [left; reflexivity|reflexivity|discriminate]. }
  split.
  - rewrite (Permutation_length (filter_permutation (fun t => String.eqb (fst t) p) _ _ P)), filter_app.
    rewrite (filter_all (fun t : string * term => String.eqb (fst t) p) taken), (filter_none (fun t : string * term => String.eqb (fst t) p) rest), app_nil_r; [exact W| |].
    + intros t I. apply String.eqb_neq, Nr, I.
    + intros t I. destruct (F t I) as [St _]. cbn in St. apply String.eqb_eq. congruence.
  - intros o I. rewrite P in I. apply in_app_or in I. destruct I as [I|I]; [apply (F _ I)|]. exfalso. exact (Nr _ I eq_refl).
Qed.

(* The claims that are refuted: the data are made, and the first entity of the shape has it. *)
Definition first_conforms (cfg : config) (rand : nat -> N) (ds : list decl) (d : decl) (id : string) : Prop :=
  exists ts other_expr, generate_shex ord0 true rand cfg ds = Ok ts /\ conforms (fun _ _ => True) (fun _ _ => True) other_expr ts d (entity id 1).

Ltac refute_number := intros (ts & oe & E & C); vm_compute in E; injection E as <-; specialize (C _ (arcs_outgoing _ _)); cbn [d_expr shape_decl] in C;
  apply right_number in C; destruct C as [W V].

(* At least two values: nothing is made at all, however the checks of arithmetic are set; or too few values are made. *)
Definition twice : decl := shape_decl "A" None (Some (constraint "p" (typed "string") (Some 2) (Some (-1)))).
Theorem C90_unbounded_refuted : exists d, (forall checks rand st, st = Random \/ st = Balanced -> generate_shex ord0 checks rand (with_strategy st) [d] = Panic) /\
  ~ first_conforms (with_strategy Maximum) rand0 [d] d "A".
Proof.
  exists twice. split.
  - intros checks rand st [-> | ->]; destruct checks; vm_compute; reflexivity.
  - refute_number. destruct W as [W _]. vm_compute in W. apply W. reflexivity.
Qed.
Print Assumptions C90_unbounded_refuted.

(* A reference: one value is asked for, but one is made with the entity, and another when entities are related. *)
Definition refers : decl := shape_decl "A" None (Some (constraint "q" (Some (SRef (LIri (Iri "B")))) None None)).
Definition referred : decl := shape_decl "B" None None.
Theorem C90_reference_refuted : exists cfg d d', whole_entities cfg /\ divides cfg /\ ~ first_conforms cfg rand0 [d; d'] d "A".
Proof.
  exists (default_config 2), refers, referred. split; [repeat split; auto; destruct H|]. split; [split; [cbn; lia|exact Logic.I]|]. refute_number. destruct W as [_ W]. vm_compute in W. lia.
Qed.
Print Assumptions C90_reference_refuted.

(* A closed shape: the type of the entity is not allowed. *)
Definition shut : decl := shape_decl "A" (Some true) (Some (constraint "p" (typed "string") None None)).
Theorem C90_closed_refuted : exists d, forall st, ~ first_conforms (with_strategy st) rand0 [d] d "A".
Proof.
  exists shut. intros st (ts & oe & E & C). destruct st; vm_compute in E; injection E as <-; specialize (C _ (arcs_outgoing _ _)); cbn [d_expr shut shape_decl] in C;
  (destruct C as (taken & rest & P & M & R); cbn [matches constraint] in M; destruct M as (_ & _ & _ & F); rewrite Forall_forall in F;
   assert (I : In (rdf_type, TmIri "A") (taken ++ rest)) by (rewrite <- P; vm_compute; tauto); apply in_app_or in I; destruct I as [I|I];
   [destruct (F _ I) as [St _]; discriminate St|destruct (R _ _ I) as [_ R2]; destruct (R2 eq_refl) as (l & x & H & _); discriminate H]).
Qed.
Print Assumptions C90_closed_refuted.

(* A choice: all the alternatives are made. *)
Definition either : decl :=
  shape_decl "A" None (Some (TOne None [constraint "p" (typed "string") None None; constraint "q" (typed "string") None None] None None None None)).
Theorem C90_choice_refuted : exists d, forall st, ~ first_conforms (with_strategy st) rand0 [d] d "A".
Proof.
  exists either. intros st (ts & oe & E & C). assert (X : Permutation (arcs_of ts (entity "A" 1)) [(rdf_type, TmIri "A"); ("p", TmLit "t" (xsd "string")); ("q", TmLit "t" (xsd "string"))]).
  { destruct st; vm_compute in E; injection E as <-; vm_compute; reflexivity. }
  specialize (C _ (arcs_outgoing _ _)). cbn [d_expr either shape_decl] in C. destruct C as (taken & rest & P & M & R).
  assert (T : forall i ve, In (Iri i, ve) (constraints (TOne None [constraint "p" (typed "string") None None; constraint "q" (typed "string") None None] None None None None)) ->
    forall o, In (i, o) (arcs_of ts (entity "A" 1)) -> In (i, o) taken).
  { intros i ve Ic o I. rewrite P in I. apply in_app_or in I. destruct I as [I|I]; [exact I|]. destruct (R _ _ I) as [R1 _].
    destruct (R1 _ _ _ eq_refl Ic eq_refl) as [(l & x & H & _) _]. discriminate H. }
  assert (Ip : In ("p", TmLit "t" (xsd "string")) taken) by (eapply T; [left; reflexivity|rewrite X; cbn; tauto]).
  assert (Iq : In ("q", TmLit "t" (xsd "string")) taken) by (eapply T; [right; left; reflexivity|rewrite X; cbn; tauto]).
  cbn [matches] in M. destruct M as (parts & Pp & [W1 W2] & F). destruct parts as [|a [|b parts]]; cbn in W1, W2; try lia. cbn in Pp. rewrite app_nil_r in Pp.
  rewrite Pp in Ip, Iq. inversion F as [|? ? Fa _]; subst. cbn in Fa. destruct Fa as [Fa|[Fa|[]]]; destruct Fa as (_ & _ & _ & Fa); rewrite Forall_forall in Fa.
  - destruct (Fa _ Iq) as [St _]. discriminate St.
  - destruct (Fa _ Ip) as [St _]. discriminate St.
Qed.
Print Assumptions C90_choice_refuted.

(* No datatype: no value is made, though one is asked for. *)
Definition one_of ve : decl := shape_decl "A" None (Some (constraint "p" ve None None)).
Theorem C90_values_refuted : exists i, forall st, Forall (fun ve => ~ first_conforms (with_strategy st) rand0 [one_of ve] (one_of ve) "A")
  [None; node (Some NIri) None None None; node None None None (Some [VIriStem (Iri i)]); Some (SAnd [])].
Proof. exists "a". intro st. repeat constructor; destruct st; refute_number; destruct W as [W _]; vm_compute in W; apply W; reflexivity. Qed.
Print Assumptions C90_values_refuted.

(* Other datatypes: no data are made, not even of the other shapes. *)
Theorem C90_datatype_refuted : exists d, forall checks rand st, generate_shex ord0 checks rand (with_strategy st) [d; shape_decl "B" None None] = Err.
Proof. exists (one_of (typed "float")). intros checks rand st. destruct st; vm_compute; reflexivity. Qed.
Print Assumptions C90_datatype_refuted.

(* Bounds outside -1000 and 10000: nothing is made at all. *)
Theorem C90_bounds_refuted : exists f f' : facet, lower f 20000 /\ upper f' (-2000) /\
  forall checks rand st, Forall (fun f => generate_shex ord0 checks rand (with_strategy st) [one_of (node None (Some (xsd "integer")) (Some [f]) None)] = Panic) [f; f'].
Proof.
  exists (@FMinIn l0 20000), (@FMaxIn l0 (-2000)). split; [left; eexists; split; vm_compute; reflexivity|]. split; [left; eexists; split; vm_compute; reflexivity|]. intros checks rand st. repeat constructor; destruct st; vm_compute; reflexivity. Qed.
Print Assumptions C90_bounds_refuted.

(* Of two lower bounds the last counts. *)
Definition bounded : option sexpr := node None (Some (xsd "integer")) (Some [FMinIn 5; FMinEx 0; FMaxIn 9]) None.
Theorem C90_facets_refuted : exists d, ~ first_conforms (with_strategy Balanced) rand0 [d] d "A".
Proof.
  exists (one_of bounded).
  refute_number. specialize (V (TmLit "4" (xsd "integer"))). cbn [value_ok bounded node] in V.
  assert (I : node_met (fun _ _ => True) (fun _ _ => True) {| n_kind := None; n_datatype := Some (Iri (xsd "integer")); n_facets := Some [FMinIn 5; FMinEx 0; FMaxIn 9]; n_values := None |} (TmLit "4" (xsd "integer")))
    by (apply V; vm_compute; tauto).
  destruct I as (_ & _ & Fs & _). destruct (Fs _ (@FMinIn l0 5) eq_refl) as (s & d & E & z & b & (i & Ei & Ez) & Nb & Le); [left; reflexivity|].
  injection E as <- <-. cbv in Ei. injection Ei as <-. cbv in Ez. subst z. cbv in Nb. injection Nb as <-. lia.
Qed.
Print Assumptions C90_facets_refuted.

(* Two values: they may be the same. *)
Definition two_of ve : decl := shape_decl "A" None (Some (constraint "p" ve (Some 2) (Some 2))).
Theorem C90_several_refuted : exists d, forall st, ~ first_conforms (with_strategy st) rand0 [d] d "A".
Proof. exists (two_of (typed "boolean")). intro st. destruct st; refute_number; destruct W as [W _]; vm_compute in W; apply W; reflexivity. Qed.
Print Assumptions C90_several_refuted.

(* A repeated group: it is made once. *)
Definition grouped : decl := shape_decl "A" None (Some (TEach None [constraint "p" (typed "string") None None] (Some 2) (Some 2) None None)).
Theorem C90_group_refuted : exists d, forall st, ~ first_conforms (with_strategy st) rand0 [d] d "A".
Proof.
  exists grouped. intros st (ts & oe & E & C). assert (X : List.length (arcs_of ts (entity "A" 1)) = 2%nat /\ In (rdf_type, TmIri "A") (arcs_of ts (entity "A" 1))).
  { destruct st; vm_compute in E; injection E as <-; vm_compute; tauto. }
  destruct X as [X Y]. specialize (C _ (arcs_outgoing _ _)). cbn [d_expr grouped shape_decl] in C. destruct C as (taken & rest & P & M & R).
  rewrite each_matches in M. destruct M as (parts & Pp & [W1 W2] & F). destruct parts as [|a [|b [|c parts]]]; cbn [List.length] in W1, W2; try lia.
  rewrite P in X, Y. rewrite app_length in X. rewrite (Permutation_length Pp) in X. cbn in X. rewrite !app_length in X. cbn in X.
  assert (Al : forall l, all_match (meets (fun _ _ => True) (fun _ _ => True) oe) [constraint "p" (typed "string") None None] l -> (1 <= List.length l)%nat /\ forall t, In t l -> fst t = "p").
  { intros l (u & v & Pl & Mu & Ev). cbn in Ev. subst v. rewrite app_nil_r in Pl. destruct Mu as (_ & _ & [W _] & Fu). cbn in W. rewrite (Permutation_length Pl). split; [lia|].
    intros t I. rewrite Pl in I. rewrite Forall_forall in Fu. destruct (Fu t I) as [St _]. cbn in St. congruence. }
  inversion F as [|? ? Fa F']; subst. inversion F' as [|? ? Fb _]; subst. destruct (Al a Fa) as [La Pa], (Al b Fb) as [Lb Pb].
  apply in_app_or in Y. destruct Y as [Y|Y]; [|destruct rest; [destruct Y|cbn in X; lia]].
  rewrite Pp in Y. cbn in Y. rewrite app_nil_r in Y. apply in_app_or in Y. destruct Y as [Y|Y]; [apply Pa in Y|apply Pb in Y]; discriminate Y.
Qed.
Print Assumptions C90_group_refuted.

(* Weights: two entities of three shapes make three. *)
Definition weights : config :=
  {| c_count := 2; c_distribution := Weighted [("A", 1%Q); ("B", 1%Q); ("C", 1%Q)]; c_strategy := Balanced; c_fill := 1; c_ignore := false; c_limit := 0; c_sel := SelAll;
     c_variance := 0; c_excluded := []; c_overrides := [] |}.
Theorem C90_weights_refuted : exists cfg, c_count cfg = 2 /\ divides cfg /\
  forall checks rand, generate_shex ord0 checks rand cfg [shape_decl "A" None None; shape_decl "B" None None; shape_decl "C" None None] =
    Ok (List.map (fun s => {| tr_s := entity s 1; tr_p := the_type; tr_o := TmIri s |}) ["A"; "B"; "C"]).
Proof. exists weights. split; [reflexivity|]. split; [split; [cbn; lia|vm_compute; reflexivity]|]. intros. vm_compute. reflexivity. Qed.
Print Assumptions C90_weights_refuted.

(* Reading the schema in the other way, facets are not seen, and at least seven values cannot be made. *)
Definition adult : option sexpr := node None (Some (xsd "integer")) (Some [FMinIn 18]) None.
Definition seven : decl := shape_decl "A" None (Some (constraint "p" (typed "string") (Some 7) (Some (-1)))).
Theorem C90_legacy_refuted :
  (exists ts, generate_legacy ord0 true rand0 (with_strategy Balanced) [one_of adult] = Ok ts /\ In {| tr_s := "A-1"; tr_p := "p"; tr_o := TmLit "-997" (xsd "integer") |} ts) /\
  forall checks rand st, st = Random \/ st = Balanced /\ checks = true -> generate_legacy ord0 checks rand (with_strategy st) [seven] = Panic.
Proof.
  split.
  - eexists. split; [vm_compute; reflexivity|]. vm_compute. tauto.
  - intros checks rand st [-> | [-> ->]]; [destruct checks|]; vm_compute; reflexivity.
Qed.
Print Assumptions C90_legacy_refuted.
