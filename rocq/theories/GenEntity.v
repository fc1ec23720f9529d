(* Lemmas about the generator: values, and single entities. *)
From Coq Require Import List String Ascii Bool ZArith QArith Permutation Lia.
Import ListNotations.
From Verif Require Import SjModel CoModel CoSpec SqModel SqSpec SqLemmas GenModel GenSpec GenLemmas GenNames.
Open Scope string_scope.
Open Scope Z_scope.

Section Entity.
Context {L : lib} {G : glib}.
Variable checks : bool.
Variable rand : nat -> N.

(* ------------------------------------------------------------------ *)
(* Parameters and values                                                *)

Lemma i64_small z : - 2 ^ 63 <= z < 2 ^ 63 -> i64 checks z = ret z.
Proof. intros [H K]. unfold i64. rewrite (proj2 (Z.leb_le _ _) H), (proj2 (Z.ltb_lt _ _) K). reflexivity. Qed.
Lemma as_i32_small z : - 2 ^ 31 <= z < 2 ^ 31 -> as_i32 z = z.
Proof.
  intro H. unfold as_i32. destruct (Z.ltb_spec z 0).
  - rewrite <- (Z.mod_unique z (2 ^ 32) (-1) (z + 2 ^ 32)) by lia. destruct (Z.ltb_spec (z + 2 ^ 32) (2 ^ 31)); lia.
  - rewrite Z.mod_small by lia. destruct (Z.ltb_spec z (2 ^ 31)); lia.
Qed.

Definition lower_cons (c : ucons) (b : Z) : Prop := forall ps n, add_param checks ps c n = Ok (put "min" (PInt b) ps, n).
Definition upper_cons (c : ucons) (b : Z) : Prop := forall ps n, add_param checks ps c n = Ok (put "max" (PInt b) ps, n).
Lemma lower_converted f b : lower f b -> small b -> exists c, convert_facet f = [c] /\ lower_cons c b.
Proof.
  unfold small. intros [(n & -> & E)|(n & c & -> & E & ->)] S; eexists; (split; [reflexivity|]); intros ps k; cbn; unfold bound_param; unfold number in E; rewrite E;
    rewrite ?Z.add_0_r; rewrite i64_small by lia; reflexivity.
Qed.
Lemma upper_converted f b : upper f b -> small b -> exists c, convert_facet f = [c] /\ upper_cons c b.
Proof.
  unfold small. intros [(n & -> & E)|(n & c & -> & E & ->)] S; eexists; (split; [reflexivity|]); intros ps k; cbn; unfold bound_param; unfold number in E; rewrite E;
    rewrite ?Z.add_0_r; rewrite i64_small by lia; reflexivity.
Qed.

Definition ranges (ps : params) (lo hi : Z) : Prop := int_param "min" (-1000) ps = lo /\ int_param "max" 10000 ps = hi.
Lemma allowed_params fs lo hi : allowed fs lo hi -> small lo -> small hi ->
  forall n, exists ps, fold_left (fun m c => bind m (fun ps => add_param checks ps c)) (flat_map convert_facet fs) (ret []) n = Ok (ps, n) /\ ranges ps lo hi.
Proof.
  intros A S1 S2 n. destruct A as [|f b Lo|f b Up|f b f' b' Lo Up|f b f' b' Lo Up].
  - exists []. split; [reflexivity|split; reflexivity].
  - destruct (lower_converted f b Lo S1) as (c & E & C). cbn [flat_map]. rewrite E. cbn [app fold_left]. unfold bind at 1, ret at 1. rewrite C.
    eexists. split; [reflexivity|]. split; [|reflexivity]. cbn. apply as_i32_small, S1.
  - destruct (upper_converted f b Up S2) as (c & E & C). cbn [flat_map]. rewrite E. cbn [app fold_left]. unfold bind at 1, ret at 1. rewrite C.
    eexists. split; [reflexivity|]. split; [reflexivity|]. cbn. apply as_i32_small, S2.
  - destruct (lower_converted f b Lo S1) as (c & E & C), (upper_converted f' b' Up S2) as (c' & E' & C'). cbn [flat_map]. rewrite E, E'. cbn [app fold_left].
    unfold bind, ret. rewrite C, C'. eexists. split; [reflexivity|]. split; cbn; apply as_i32_small; assumption.
  - destruct (lower_converted f b Lo S1) as (c & E & C), (upper_converted f' b' Up S2) as (c' & E' & C'). cbn [flat_map]. rewrite E, E'. cbn [app fold_left].
    unfold bind, ret. rewrite C', C. eexists. split; [reflexivity|]. split; cbn; apply as_i32_small; assumption.
Qed.

Definition datatype_cons (n : nodec) : list ucons := match n_datatype n with Some d => [CDatatype (show_iri d)] | None => [] end.
Lemma easy_params n d : n_datatype n = Some (Iri d) -> n_kind n = None \/ n_kind n = Some NLiteral ->
  parameters checks (convert_node_constraint n) =
  fold_left (fun m c => bind m (fun ps => add_param checks ps c)) (match n_facets n with Some fs => flat_map convert_facet fs | None => [] end) (ret []).
Proof. intros E [K|K]; unfold parameters, convert_node_constraint; rewrite E, K; reflexivity. Qed.

Lemma known_typed d v : In d known_datatypes -> create_typed_literal v d = TmLit v d.
Proof.
  intro H. unfold create_typed_literal.
  assert (E : existsb (String.eqb d) [xsd "string"; xsd "integer"; xsd "decimal"; xsd "boolean"; xsd "date"; xsd "dateTime"; xsd "anyURI"] = true).
  { apply existsb_exists. exists d. split; [exact H|apply String.eqb_refl]. }
  rewrite E. reflexivity.
Qed.

Lemma field_integer p ps lo hi : lo <= hi -> ranges ps lo hi ->
  always (fun s => exists z, denotes s z /\ lo <= z <= hi) (generate_field rand (xsd "integer") p ps).
Proof.
  intros H [R1 R2]. unfold generate_field. rewrite String.eqb_refl. unfold integer_value. rewrite R1, R2.
  eapply always_bind; [apply gen_range_in, H|]. intros z Z. apply always_ret. exists z. split; [apply show_z_denotes|exact Z].
Qed.
Lemma field_made d p : texts -> In d known_datatypes -> always (fun _ => True) (generate_field rand d p []).
Proof.
  intros T H. unfold generate_field. destruct (String.eqb_spec d (xsd "integer")) as [->|N1].
  { unfold integer_value. eapply always_bind; [apply gen_range_in; cbn; lia|]. intros z Z. apply always_ret. exact Logic.I. }
  destruct (String.eqb_spec d (xsd "boolean")) as [->|N2].
  { intro n. unfold boolean_value, bind, draw, ret. eexists _, _. split; [reflexivity|exact Logic.I]. }
  assert (E : existsb (String.eqb d) [xsd "string"; xsd "decimal"; xsd "date"; xsd "dateTime"; xsd "anyURI"] = true).
  { apply existsb_exists. exists d. split; [|apply String.eqb_refl]. cbn in H |- *. change (xsd "integer") with "http://www.w3.org/2001/XMLSchema#integer" in N1.
    change (xsd "boolean") with "http://www.w3.org/2001/XMLSchema#boolean" in N2. intuition congruence. }
  rewrite E. intro n. unfold bind, draw, lift. destruct (T d p (rand n) H) as (s & Es). rewrite Es. eexists _, _. split; [reflexivity|exact Logic.I].
Qed.

Section Values.
Variable other_facet : facet -> string -> Prop.
Variable in_set : list SjModel.value -> term -> Prop.

Lemma allowed_met fs lo hi s z f : allowed fs lo hi -> denotes s z -> lo <= z <= hi -> In f fs -> facet_met other_facet f s.
Proof.
  intros A D R I.
  assert (LO : lower f lo -> facet_met other_facet f s).
  { intros [(n & -> & N)|(n & c & -> & N & ->)]; cbn; exists z; eexists; (split; [exact D|]; split; [exact N|]); lia. }
  assert (HI : upper f hi -> facet_met other_facet f s).
  { intros [(n & -> & N)|(n & c & -> & N & ->)]; cbn; exists z; eexists; (split; [exact D|]; split; [exact N|]); lia. }
  destruct A; cbn in I; intuition (subst; auto).
Qed.

(* A value for an easy node constraint. *)
Lemma easy_value n p : texts -> easy_node n -> exists d, datatype_of (convert_node_constraint n) = Some d /\ refs_of (convert_node_constraint n) = [] /\
  always (node_met other_facet in_set n)
    (bind (parameters checks (convert_node_constraint n)) (fun ps => bind (generate_field rand d p ps) (fun s => ret (create_typed_literal s d)))).
Proof.
  intros T (d & D & Kn & V & K & F). exists d.
  assert (FC : forall f, datatype_of (convert_facet f) = None /\ refs_of (convert_facet f) = []) by (intros []; split; reflexivity).
  split; [unfold convert_node_constraint; rewrite D; reflexivity|]. split.
  { unfold convert_node_constraint. rewrite D. unfold refs_of. rewrite !flat_map_app.
    assert (R : forall fs, flat_map (fun c => match c with CShapeRef r => [r] | _ => [] end) (flat_map convert_facet fs) = []).
    { induction fs as [|f fs IH]; cbn; [reflexivity|]. rewrite flat_map_app. rewrite (proj2 (FC f) : flat_map _ _ = []). exact IH. }
    destruct K as [-> | ->]; cbn; destruct (n_facets n); auto. }
  rewrite (easy_params n d D K).
  assert (M : forall s, (forall fs f, n_facets n = Some fs -> In f fs -> facet_met other_facet f s) -> node_met other_facet in_set n (TmLit s d)).
  { intros s Fm. split; [|split; [|split]].
    - intros d' E. rewrite D in E. injection E as <-. exists s, d. split; reflexivity.
    - intros k E. destruct K as [K|K]; rewrite K in E; [discriminate|]. injection E as <-. cbn. eauto.
    - intros fs f E I. exists s, d. split; [reflexivity|]. eapply Fm; eassumption.
    - intros vs E. congruence. }
  assert (None_case : (forall fs f, n_facets n = Some fs -> In f fs -> False) ->
    always (node_met other_facet in_set n) (bind (generate_field rand d p []) (fun s => ret (create_typed_literal s d)))).
  { intro Nf. eapply always_bind; [apply field_made; assumption|]. intros s _. apply always_ret. rewrite known_typed by assumption. apply M. intros fs f E I. destruct (Nf fs f E I). }
  destruct (n_facets n) as [fs|] eqn:Ef.
  - destruct F as [->|[-> (lo & hi & A & Le & S1 & S2)]].
    + cbn [flat_map fold_left]. intro k. change (bind (ret []) ?f k) with (f [] k). apply None_case. intros fs f E I. injection E as <-. destruct I.
    + intro k. unfold bind at 1. destruct (allowed_params fs lo hi A S1 S2 k) as (ps & E & R). rewrite E. revert k E. intros k E. clear E. revert k.
      change (always (node_met other_facet in_set n) (bind (generate_field rand (xsd "integer") p ps) (fun s => ret (create_typed_literal s (xsd "integer"))))).
      eapply always_bind; [apply (field_integer p ps lo hi Le R)|]. intros s (z & Dz & Rz). apply always_ret. rewrite known_typed by exact Kn. apply M.
      intros fs' f E I. injection E as <-. eapply allowed_met; eassumption.
  - cbn [fold_left]. intro k. change (bind (ret []) ?f k) with (f [] k). apply None_case. intros fs f E I. discriminate.
Qed.
End Values.

(* ------------------------------------------------------------------ *)
(* Choosing properties                                                  *)

Variable cfg : config.
Variable shapes : list (string * info).

Lemma lookup_in {A} k (m : list (string * A)) a : lookup k m = Some a -> In (k, a) m.
Proof. induction m as [|[k' a'] m IH]; cbn; [discriminate|]. destruct (String.eqb_spec k k') as [->|]; [intro E; injection E as ->; auto|auto]. Qed.

Lemma effective_whole id : whole_entities cfg -> c_ignore (effective cfg id) = false /\ c_limit (effective cfg id) = 0 /\ c_excluded (effective cfg id) = [].
Proof.
  intros (W1 & W2 & W3 & W4). unfold effective. destruct (lookup id (c_overrides cfg)) as [o|] eqn:E; [|auto].
  apply lookup_in in E. destruct (W4 _ _ E) as (O1 & O2 & O3). cbn. split; [|split].
  - destruct (o_ignore o) as [[|]|]; congruence.
  - destruct (o_limit o) as [n|]; auto.
  - destruct (o_excluded o) as [l|]; auto.
Qed.

Lemma probability_always c : always (fun _ => True) (probability rand c).
Proof.
  unfold probability. destruct (Qle_bool (c_variance c) 0); [apply always_ret; exact Logic.I|]. eapply always_bind; [apply unit_always|]. intros. apply always_ret. exact Logic.I.
Qed.

Lemma select_always c prob n must may : always (fun l => exists rest, Permutation may (l ++ rest)) (select rand c prob n must may).
Proof.
  assert (A : always (fun l => exists rest, Permutation may (l ++ rest)) (each may (fun p => bind (unit_interval rand) (fun roll => ret (if Qle_bool roll prob then [p] else []))))).
  { eapply always_weaken; [|apply (always_each (fun p l => l = [p] \/ l = []))].
    - intros l (rs & -> & F). induction F as [|p l0 may' rs H F (rest & IH)]; cbn.
      + exists []. constructor.
      + destruct H as [-> | ->]; cbn; [exists rest; constructor; exact IH|]. exists (p :: rest). rewrite IH. apply Permutation_middle.
    - intros p _. eapply always_bind; [apply unit_always|]. intros q _. apply always_ret. destruct (Qle_bool q prob); auto. }
  unfold select. destruct (c_sel c); try exact A.
  match goal with |- context [if ?b then _ else _] => destruct b end; [|apply always_ret; exists may; reflexivity].
  eapply always_bind; [apply shuffle_always|]. intros l P. apply always_ret. eexists (skipn _ l). rewrite firstn_skipn. exact P.
Qed.

Lemma filter_perm {A} (f : A -> bool) (l : list A) : Permutation l (filter (fun a => negb (f a)) l ++ filter f l).
Proof.
  induction l as [|a l IH]; cbn; [constructor|]. destruct (f a); cbn; [|constructor; exact IH]. rewrite <- Permutation_middle. constructor. exact IH.
Qed.

Definition props_triples (node : string) (l : list (prop * list term)) : list triple :=
  flat_map (fun e => List.map (fun o => {| tr_s := node; tr_p := p_iri (fst e); tr_o := o |}) (snd e)) l.
Lemma single_entity_always (P : prop -> list term -> Prop) i idx : whole_entities cfg ->
  (forall c p, In p (i_props i) -> c_ignore c = false -> always (fun ts => exists os, ts = List.map (fun o => {| tr_s := entity_iri (i_id i) (idx + 1); tr_p := p_iri p; tr_o := o |}) os /\ P p os)
    (property_triples checks rand cfg shapes c (entity_iri (i_id i) (idx + 1)) idx p)) ->
  always (fun ts => exists l rest, ts = {| tr_s := entity_iri (i_id i) (idx + 1); tr_p := rdf_type; tr_o := TmIri (i_id i) |} :: props_triples (entity_iri (i_id i) (idx + 1)) l /\
      Permutation (i_props i) (List.map fst l ++ rest) /\ Forall (fun e => P (fst e) (snd e)) l /\ Forall (fun p => p_min p = None \/ exists m, p_min p = Some m /\ m <= 0) rest)
    (single_entity checks rand cfg shapes i idx).
Proof.
  intros W H. unfold single_entity. set (c := effective cfg (i_id i)). destruct (effective_whole (i_id i) W) as (W1 & W2 & W3). fold c in W1, W2, W3.
  eapply always_bind; [apply probability_always|]. intros prob _.
  assert (Av : available c (i_props i) = i_props i).
  { unfold available. rewrite W3. generalize (i_props i). clear. intro l. induction l as [|p ps IH]; cbn in *; [reflexivity|]. rewrite IH. reflexivity. }
  rewrite Av. eapply always_bind; [apply select_always|]. intros chosen (rest & Pm). unfold limit. rewrite W2. cbn [Z.ltb Z.compare andb].
  eapply always_bind; [apply always_ret with (P := eq (chosen ++ filter (mandatory c) (i_props i))%list); reflexivity|]. intros ps <-.
  assert (Perm : Permutation (i_props i) ((chosen ++ filter (mandatory c) (i_props i)) ++ rest)).
  { rewrite (filter_perm (mandatory c) (i_props i)) at 1. rewrite Pm. rewrite <- !app_assoc. apply Permutation_app_head. apply Permutation_app_comm. }
  eapply always_bind; [apply always_each with (P := fun p ts => exists os, ts = List.map (fun o => {| tr_s := entity_iri (i_id i) (idx + 1); tr_p := p_iri p; tr_o := o |}) os /\ P p os)|].
  - intros p I. apply H; [|exact W1]. apply (Permutation_in _ (Permutation_sym Perm)). apply in_or_app. left. exact I.
  - intros ts (rs & -> & F). apply always_ret.
    assert (X : exists l, List.concat rs = props_triples (entity_iri (i_id i) (idx + 1)) l /\ List.map fst l = (chosen ++ filter (mandatory c) (i_props i))%list /\ Forall (fun e => P (fst e) (snd e)) l).
    { clear -F. induction F as [|p ts ps rs (os & -> & Po) F (l & E1 & E2 & E3)]; [exists []; cbn; auto|]. exists ((p, os) :: l). cbn. rewrite E1, E2. auto. }
    destruct X as (l & E1 & E2 & E3). exists l, rest. rewrite E1, E2. split; [reflexivity|]. split; [exact Perm|]. split; [exact E3|].
    apply Forall_forall. intros p I. assert (Ip : In p (filter (fun a => negb (mandatory c a)) (i_props i))) by (apply (Permutation_in _ (Permutation_sym Pm)), in_or_app; auto).
    apply filter_In in Ip. destruct Ip as [_ M]. apply negb_true_iff in M. unfold mandatory in M. rewrite W1 in M. apply Z.ltb_ge in M. destruct (p_min p) as [m|]; [right; eauto|left; reflexivity].
Qed.

(* The property of an easy constraint. *)
Definition cons := (string * nodec * option Z * option Z)%type.
Definition c_name (c : cons) : string := fst (fst (fst c)).
Definition c_node (c : cons) : nodec := snd (fst (fst c)).
Definition prop_of (c : cons) : prop :=
  to_prop {| u_iri := c_name c; u_cons := convert_node_constraint (c_node c); u_min := fst (convert_cardinality (snd (fst c)) (snd c));
             u_max := snd (convert_cardinality (snd (fst c)) (snd c)) |}.

Definition enough (mn mx : option Z) (k : nat) : Prop :=
  match mn with Some z => z | None => 1 end <= Z.of_nat k /\
  match mx with Some z => z = -1 \/ Z.of_nat k <= z | None => (k <= 1)%nat end.
Lemma easy_property (other_facet : facet -> string -> Prop) in_set (c : cons) cf node idx : texts -> easy_node (c_node c) -> easy_repeat (snd (fst c)) (snd c) -> 0 <= idx -> c_ignore cf = false ->
  always (fun ts => exists os, ts = List.map (fun o => {| tr_s := node; tr_p := p_iri (prop_of c); tr_o := o |}) os /\
      enough (snd (fst c)) (snd c) (List.length os) /\ Forall (node_met other_facet in_set (c_node c)) os)
    (property_triples checks rand cfg shapes cf node idx (prop_of c)).
Proof.
  intros T E R I Ig. destruct c as [[[i n] mn] mx]. cbn [c_node c_name fst snd] in *. unfold property_triples. rewrite Ig.
  destruct (easy_value other_facet in_set n i T E) as (d & D & Rf & V). unfold prop_of, to_prop. cbn [p_min p_max p_ref p_datatype p_cons p_iri u_iri u_cons u_min u_max c_name c_node fst snd].
  rewrite D, Rf. cbn [hd_error].
  eapply always_bind; [apply value_count_between with (mn := option_map as_i32 (fst (convert_cardinality mn mx))) (mx := option_map as_i32 (snd (convert_cardinality mn mx))); [|exact I]|].
  - destruct R as [R1 R2]. unfold can_be_met, convert_cardinality. cbn [fst snd].
    destruct mn as [m|]; [destruct (Z.leb_spec 0 m); [|lia]|]; cbn [option_map]; rewrite as_i32_small by lia.
    + destruct mx as [k|]; [|cbn; lia]. destruct (Z.leb_spec 0 k); cbn [option_map]; [rewrite as_i32_small; lia|lia].
    + destruct mx as [k|]; [|cbn; lia]. destruct (Z.leb_spec 0 k); cbn [option_map]; [rewrite as_i32_small; lia|lia].
  - intros k [K B].
    eapply always_weaken; [|apply always_each with (P := fun (_ : Z) ts => exists o, ts = [{| tr_s := node; tr_p := i; tr_o := o |}] /\ node_met other_facet in_set n o)].
    + intros ts (rs & -> & F).
      assert (X : exists os, List.concat rs = List.map (fun o => {| tr_s := node; tr_p := i; tr_o := o |}) os /\ List.length os = List.length (upto k) /\ Forall (node_met other_facet in_set n) os).
      { clear -F. induction F as [|z ts l rs (o & -> & Po) F (os & E1 & E2 & E3)]; [exists []; auto|]. exists (o :: os). cbn. rewrite E1, E2. auto. }
      destruct X as (os & E1 & E2 & E3). exists os. split; [exact E1|]. split; [|exact E3]. rewrite E2. unfold upto. rewrite map_length, seq_length.
      unfold enough. rewrite Z2Nat.id by exact K. destruct R as [R1 R2]. unfold between, convert_cardinality in B. cbn [fst snd] in B. destruct B as [B1 B2].
      split.
      * destruct mn as [m|]; [destruct (Z.leb_spec 0 m); [|lia]|]; cbn [option_map] in B1; rewrite as_i32_small in B1 by lia; lia.
      * destruct mx as [x|]; [|cbn in B2; lia]. destruct (Z.leb_spec 0 x); cbn [option_map] in B2; [|lia]. rewrite as_i32_small in B2 by lia. lia.
    + intros v _. intro x. destruct (V x) as (o & n' & Ev & Mo). unfold bind in Ev |- *.
      destruct (parameters checks (convert_node_constraint n) x) as [[ps x']| |]; try discriminate.
      destruct (generate_field rand d i ps x') as [[s x'']| |]; try discriminate. unfold ret in *. injection Ev as <- <-. eexists _, _. split; [reflexivity|]. eauto.
Qed.
End Entity.
