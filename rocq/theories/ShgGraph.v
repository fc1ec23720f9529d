(* Lemmas about generating data from SHACL shapes: the whole graph. *)
From Coq Require Import List String Ascii Bool ZArith QArith Permutation Lia.
Import ListNotations.
From Verif Require Import SjModel CoModel CoSpec SqModel SqSpec SqLemmas GenModel GenSpec GenLemmas GenNames GenEntity GenGraph GenWhole GenAny CmModel CmSpec CmLemmas ShgModel ShgSpec ShgLemmas.
Open Scope string_scope.
Open Scope Z_scope.

Lemma allotted_perm cfg a b f : Permutation a b -> allotted cfg a f -> allotted cfg b f.
Proof.
  intros P. unfold allotted. destruct (c_distribution cfg) as [| |cs]; [|auto|].
  - intros [A B]. split.
    + intro N. rewrite <- (total_perm _ _ (Permutation_map f P)). apply A. intros ->. apply N. apply Permutation_nil, P.
    + intros i j I J. apply B; rewrite P; assumption.
  - intros A i I. apply A. rewrite P. exact I.
Qed.
Lemma unique_by {A B} (f : A -> B) l a b : NoDup (List.map f l) -> In a l -> In b l -> f a = f b -> a = b.
Proof.
  induction l as [|x l IH]; cbn; [tauto|]. intros N I J E. inversion N as [|? ? N1 N2]; subst. destruct I as [->|I], J as [->|J]; auto; exfalso; apply N1.
  - rewrite E. apply in_map, J.
  - rewrite <- E. apply in_map, I.
Qed.

Section Graph.
Context {L : lib} {G : glib}.
Variable ord : forall A : Type, list (string * A) -> list (string * A).
Hypothesis ord_perm : forall A (l : list (string * A)), Permutation (ord A l) l.
Variable checks : bool.
Variable rand : nat -> N.
Variable cfg : config.
Variable other : component -> (term -> Prop) -> Prop.
Variable sch : schema.
Hypothesis easy_sch : easy_shapes_graph sch.
Hypothesis T : texts.

Definition id_of (s : node_shape) : string := show_name (ns_id s).
Definition the_prop (ps : prop_shape) : prop := to_prop (convert_property ps).
Definition info_sh (s : node_shape) : info := {| i_id := id_of s; i_deps := []; i_props := List.map the_prop (property_shapes sch s) |}.

Lemma node_easy s : In s (node_shapes sch) -> In (ns_id s, SNodeShape s) sch /\ easy_node_shape sch s.
Proof. intro I. apply in_node_shapes in I. destruct I as (n & I). destruct (proj2 easy_sch n s I) as [<- E]. auto. Qed.
Lemma ids_differ : NoDup (List.map id_of (node_shapes sch)).
Proof.
  assert (X : forall l, incl l sch -> NoDup (List.map fst l) -> NoDup (List.map id_of (node_shapes l))).
  { induction l as [|[n [s|p]] l IH]; intros Inc N; cbn in *; [constructor| |]; inversion N as [|? ? N1 N2]; subst.
    - constructor; [|apply IH; [intros x I; apply Inc; right; exact I|exact N2]]. intro I. apply in_map_iff in I. destruct I as (s' & E & I). apply in_node_shapes in I. destruct I as (n' & I).
      destruct (proj2 easy_sch n s (Inc _ (or_introl eq_refl))) as (En & (i & Ei & _) & _). destruct (proj2 easy_sch n' s' (Inc _ (or_intror I))) as (En' & (i' & Ei' & _) & _).
      unfold id_of in E. rewrite Ei, Ei' in E. cbn in E. subst i'. apply N1. rewrite <- En, Ei, <- Ei', En'. apply (in_map fst) in I. exact I.
    - apply IH; [intros x I; apply Inc; right; exact I|exact N2]. }
  apply X; [apply incl_refl|apply easy_sch].
Qed.
Lemma easy_pss s : In s (node_shapes sch) -> NoDup (List.map ps_path (property_shapes sch s)) /\ Forall easy_property_shape (property_shapes sch s) /\
  forall ps, has_property sch s ps <-> In ps (property_shapes sch s).
Proof.
  intro I. destruct (node_easy s I) as (_ & _ & _ & pss & P & N & F). rewrite (properties_found sch s pss (proj1 easy_sch) P). split; [exact N|]. split; [exact F|]. apply properties_has; [apply easy_sch|exact P].
Qed.
Lemma easy_no_deps ps : easy_property_shape ps -> to_deps (convert_property ps) = [].
Proof.
  intros (_ & E & _). destruct (easy_shape_value checks rand (ps_comps ps) "" T E) as (d & Ne & _ & R & _). unfold to_deps, convert_property. cbn [u_cons].
  destruct (somes (List.map convert_component (ps_comps ps))) eqn:Es; [destruct (Ne eq_refl)|]. rewrite R. reflexivity.
Qed.
Lemma easy_infos : Permutation (set_shapes (to_infos ord (convert_schema sch))) (List.map (fun s => (id_of s, info_sh s)) (node_shapes sch)).
Proof.
  pose proof ids_differ as N.
  assert (C : convert_schema sch = List.map (fun s => (id_of s, convert_shape sch s)) (node_shapes sch)) by (apply (put_all id_of (convert_shape sch) (node_shapes sch) []); exact N).
  unfold to_infos. rewrite C. set (m := List.map (fun s => (id_of s, convert_shape sch s)) (node_shapes sch)).
  assert (P : Permutation (List.map (fun e => {| i_id := info_id (fst e); i_deps := flat_map to_deps (u_props (snd e)); i_props := List.map to_prop (u_props (snd e)) |}) (ord _ m)) (List.map info_sh (node_shapes sch))).
  { rewrite (ord_perm _ m). unfold m. rewrite map_map. cbn [fst snd]. erewrite map_ext_in; [reflexivity|]. intros s I. unfold info_sh. destruct (easy_pss s I) as (_ & F & _).
    destruct (node_easy s I) as (_ & (i & Ei & Oi) & _). unfold info_id, id_of. rewrite Ei. cbn [show_name]. rewrite Oi. cbn [convert_shape u_props]. rewrite map_map. f_equal.
    induction F as [|ps l E F IH]; cbn [List.map flat_map]; [reflexivity|]. rewrite (easy_no_deps ps E), IH. reflexivity. }
  set (l := List.map _ (ord _ m)) in *. clearbody l.
  assert (Nl : NoDup (List.map i_id l)). { rewrite P. rewrite map_map. exact N. }
  unfold set_shapes. rewrite (put_all i_id (fun i => i) l []) by exact Nl. cbn [app]. rewrite P, map_map. reflexivity.
Qed.

Definition valued (p : prop) (os : list term) : Prop :=
  p_iri p <> the_type /\
  forall ps, easy_property_shape ps -> p = the_prop ps -> numbered (ps_comps ps) (List.length os) /\ Forall (fun o => forall c, In c (ps_comps ps) -> single c o) os.
Lemma easy_valued infos ps cf node idx : easy_property_shape ps -> 0 <= idx -> c_ignore cf = false ->
  always (fun ts => exists os, ts = List.map (fun o => {| tr_s := node; tr_p := p_iri (the_prop ps); tr_o := o |}) os /\ valued (the_prop ps) os)
    (property_triples checks rand cfg infos cf node idx (the_prop ps)).
Proof.
  intros E I Ig n. destruct (easy_shape_property checks rand cfg infos ps cf node idx T E I Ig n) as (ts & n' & R & os & Et & _). exists ts, n'. split; [exact R|]. exists os. split; [exact Et|]. split.
  - destruct E as ((p & Ep & Np) & _). cbn. rewrite Ep. exact Np.
  - intros ps' E' Eq. destruct (easy_shape_property checks rand cfg infos ps' cf node idx T E' I Ig n) as (ts' & n'' & R' & os' & Et' & Nu & Fo).
    fold (the_prop ps') in R'. rewrite <- Eq in R'. unfold the_prop in R, R'. rewrite R in R'. injection R' as <- _.
    assert (Eo : os = os').
    { rewrite Et in Et'. clear -Et'. revert os' Et'. induction os as [|o os IH]; intros [|o' os'] E; try discriminate; [reflexivity|]. cbn in E. injection E as _ -> E. f_equal. apply IH, E. }
    subst os'. split; assumption.
Qed.

Definition infos : list (string * info) := set_shapes (to_infos ord (convert_schema sch)).
Lemma in_infos id i : In (id, i) infos <-> exists s, In s (node_shapes sch) /\ id = id_of s /\ i = info_sh s.
Proof.
  unfold infos. rewrite easy_infos, in_map_iff. split.
  - intros (s & E & I). injection E as <- <-. eauto.
  - intros (s & I & -> & ->). eauto.
Qed.
Lemma infos_keys : NoDup (List.map fst infos).
Proof. unfold infos. rewrite easy_infos, map_map. exact ids_differ. Qed.

(* The values of a property of an entity do what the shape says. *)
Lemma entity_satisfies ts s node l rest : In s (node_shapes sch) ->
  (forall p o, arc ts (TmIri node) p o <-> p = the_type /\ o = TmIri (id_of s) \/ exists e, In e l /\ p = p_iri (fst e) /\ In o (snd e)) ->
  Permutation (List.map the_prop (property_shapes sch s)) (List.map fst l ++ rest) -> Forall (fun e => valued (fst e) (snd e)) l ->
  Forall (fun p => p_min p = None \/ exists m, p_min p = Some m /\ m <= 0) rest -> satisfied ts other sch s (TmIri node).
Proof.
  intros I Arcs P V Rs. destruct (easy_pss s I) as (N & F & Hp). destruct (node_easy s I) as (_ & _ & Nc & _).
  split; [|rewrite Nc; intros c []]. intros ps c Ps Ic. apply Hp in Ps. rewrite Forall_forall in F. pose proof (F ps Ps) as E. destruct E as ((p & Ep & Np) & Ev & Ec). rewrite Ep.
  assert (Al : forall o, along ts (PPred p) (TmIri node) o <-> exists e, In e l /\ p = p_iri (fst e) /\ In o (snd e)).
  { intro o. split.
    - intro A. inversion A as [? ? ? A' | | | | | | | | | ]; subst. apply Arcs in A'. destruct A' as [[E _]|A']; [destruct (Np E)|exact A'].
    - intro A. constructor. apply Arcs. right. exact A. }
  assert (Nd : NoDup (List.map p_iri (List.map fst l ++ rest))).
  { rewrite <- (Permutation_map p_iri P), map_map. cbn. clear -N F. induction (property_shapes sch s) as [|q qs IH]; cbn in *; [constructor|]. inversion N as [|? ? N1 N2]; subst.
    constructor; [|apply IH; auto]. intro J. apply in_map_iff in J. destruct J as (q' & Eq & J). apply N1. destruct (F q (or_introl eq_refl)) as ((a & Ea & _) & _), (F q' (or_intror J)) as ((b & Eb & _) & _).
    rewrite Ea, Eb in Eq. cbn in Eq. subst b. rewrite Ea, <- Eb. apply in_map, J. }
  assert (Pi : p_iri (the_prop ps) = p) by (cbn; rewrite Ep; reflexivity).
  assert (J : In (the_prop ps) (List.map fst l ++ rest)) by (rewrite <- P; apply in_map, Ps).
  apply in_app_or in J. destruct J as [J|J].
  - apply in_map_iff in J. destruct J as ([q os] & Eq & J). cbn in Eq. subst q. rewrite Forall_forall in V. destruct (V _ J) as [_ Vp]. cbn [fst snd] in Vp. destruct (Vp ps (F ps Ps) eq_refl) as [Nu Fo].
    rewrite Forall_forall in Fo.
    assert (Vo : forall o, along ts (PPred p) (TmIri node) o <-> In o os).
    { intro o. rewrite Al. split; [|intro K; exists (the_prop ps, os); auto]. intros (e & Ie & Ee & Io). rewrite map_app in Nd. apply nodup_l in Nd. rewrite map_map in Nd.
      rewrite (unique_by (fun e => p_iri (fst e)) l e (the_prop ps, os) Nd Ie J) in Io; [exact Io|]. cbn [fst]. rewrite Pi. symmetry. exact Ee. }
    destruct Ev as (d & Id & Kn & All & _).
    destruct (All c Ic) as [->|[(k & -> & K)|[(z & [-> | ->])|(_ & [(b & [-> | ->])|(b & [-> | ->])])]]]; cbn [holds]; try (intros o Ho; apply Vo in Ho; exact (Fo o Ho _ Ic)).
    + destruct (proj1 (Nu z) Ic) as [A B]. destruct os as [|o os]; [exists []; cbn in *; split; [constructor|]; split; [intros ? []|lia]|]. exists [o]. split; [repeat constructor; intros []|].
      split; [intros o' [<-|[]]; apply Vo; left; reflexivity|cbn; lia].
    + pose proof (proj2 (Nu z) Ic) as A. intros os' No Ho. enough (List.length os' <= List.length os)%nat by lia. apply NoDup_incl_length; [exact No|]. intros o Io. apply Vo, Ho, Io.
  - assert (Vo : forall o, ~ along ts (PPred p) (TmIri node) o).
    { intros o A. apply Al in A. destruct A as (e & Ie & Ee & _). rewrite map_app in Nd. rewrite map_map in Nd. apply in_split in J. destruct J as (r1 & r2 & ->). rewrite map_app in Nd. cbn [List.map] in Nd. rewrite app_assoc in Nd. apply NoDup_remove_2 in Nd. apply Nd.
      rewrite Pi, Ee. apply in_or_app. left. apply in_or_app. left. apply (in_map (fun x => p_iri (fst x))), Ie. }
    destruct Ev as (d & Id & Kn & All & _).
    destruct (All c Ic) as [->|[(k & -> & K)|[(z & [-> | ->])|(_ & [(b & [-> | ->])|(b & [-> | ->])])]]]; cbn [holds]; try (intros o Ho; destruct (Vo o Ho)).
    + exists []. split; [constructor|]. split; [intros ? []|]. rewrite Forall_forall in Rs. specialize (Rs _ J). destruct Ec as (mn & mx & A & B & Rm & Rx).
      destruct mn as [m|]; [|destruct (A z Ic)]. rewrite (proj2 A z Ic). cbn in Rs. rewrite (extracted (ps_comps ps) (Some m) mx A B) in Rs; [| |]; [|intros z' Ez; injection Ez as <-; lia|intros z' ->; cbn in *; lia].
      cbn in Rs. rewrite as_i32_small in Rs by lia. destruct Rs as [Rs|(m' & Em & Lm)]; [discriminate|]. injection Em as <-. cbn. lia.
    + intros os _ Ho. destruct os as [|o os]; [|destruct (Vo o (Ho o (or_introl eq_refl)))]. destruct Ec as (mn & mx & A & B & Rm & Rx). destruct mx as [m|]; [|destruct (B z Ic)]. rewrite (proj2 B z Ic). cbn in *. lia.
Qed.

Theorem shacl_good : whole_entities cfg -> divides cfg ->
  exists ts, generate_shacl ord checks rand cfg sch = Ok ts /\ good_shapes other cfg sch ts /\ (own_targets sch -> conforming ts other sch).
Proof.
  intros W D.
  assert (Ids : forall id i, In (id, i) infos -> i_id i = id /\ i_deps i = []). { intros id i I. apply in_infos in I. destruct I as (s & _ & -> & ->). split; reflexivity. }
  destruct (all_made ord ord_perm checks rand cfg infos valued infos_keys Ids) as (ts & n & R & f & Er & Ets & Nr & Al & Nonneg & Has & Made); [|exact W|exact D|].
  { intros id i p cf node idx I J Ig K. apply in_infos in I. destruct I as (s & Is & -> & ->). cbn in J. apply in_map_iff in J. destruct J as (ps & <- & J). apply easy_valued; [|exact K|exact Ig].
    destruct (easy_pss s Is) as (_ & F & _). rewrite Forall_forall in F. apply F, J. }
  assert (Pos : forall r, In r R -> 0 <= snd (fst r)). { intros [[id k] x] I. apply (in_map fst) in I. apply Has in I. cbn. lia. }
  destruct (own_triples infos valued Ids R Nr Pos Made) as [Subj Own].
  assert (Keys : forall id, In id (List.map fst infos) <-> exists s, In (NmIri id, SNodeShape s) sch).
  { intro id. rewrite in_map_iff. split.
    - intros ([id' i] & <- & I). apply in_infos in I. destruct I as (s & I & -> & _). destruct (node_easy s I) as (I' & (i' & Ei & _) & _). exists s. unfold id_of. cbn [fst]. rewrite Ei in *. exact I'.
    - intros (s & I). exists (id, info_sh s). split; [reflexivity|]. apply in_infos. exists s. split; [apply in_node_shapes; eauto|]. split; [|reflexivity]. unfold id_of. rewrite (proj1 (proj2 easy_sch _ _ I)). reflexivity. }
  (* the types of nodes *)
  assert (Types : forall m id, arc ts m the_type (TmIri id) -> exists k s, m = TmIri (entity id k) /\ 1 <= k <= f id /\ In (NmIri id, SNodeShape s) sch).
  { intros m id (sb & -> & I). rewrite Ets in I. apply in_concat in I. destruct I as (x & I & J). apply in_map_iff in I. destruct I as ([[id' k] y] & <- & I). cbn [snd] in J.
    destruct (Made _ I) as (i & Ii & l & rest & Ey & P & Fv & _). cbn [fst snd] in *. rewrite Ey in J. destruct (Ids _ _ Ii) as [Ei _]. destruct J as [J|J].
    - injection J as Es Eo. rewrite Ei in Es, Eo. subst id'. apply (in_map fst) in Ii. cbn in Ii. pose proof (proj1 (Keys _) Ii) as (s & Is). exists (k + 1), s. split; [rewrite <- Es; reflexivity|]. split; [|exact Is].
      apply (in_map fst) in I. apply Has in I. lia.
    - apply in_props in J. destruct J as (e & o & Ie & Io & E). injection E as _ Ep _. rewrite Forall_forall in Fv. destruct (Fv e Ie) as [Ne _]. destruct Ne. symmetry. exact Ep. }
  assert (Good : forall id s, In (NmIri id, SNodeShape s) sch -> forall k, 1 <= k <= f id -> arc ts (TmIri (entity id k)) the_type (TmIri id) /\ satisfied ts other sch s (TmIri (entity id k))).
  { intros id s I k K. assert (Ik : In id (List.map fst infos)) by (apply Keys; eauto).
    assert (J : In (id, k - 1) (List.map fst R)) by (apply Has; split; [exact Ik|lia]). apply in_map_iff in J. destruct J as ([c x] & Ec & J). cbn in Ec. subst c.
    destruct (Made _ J) as (i & Ii & l & rest & Ex & P & Fv & Fr). cbn [fst snd] in *. assert (Is : In s (node_shapes sch)) by (apply in_node_shapes; eauto).
    assert (Eid : id_of s = id) by (unfold id_of; rewrite (proj1 (proj2 easy_sch _ _ I)); reflexivity).
    assert (Ei : i = info_sh s).
    { assert (J' : In (id, info_sh s) infos) by (apply in_infos; exists s; auto). pose proof (lookup_some id i infos infos_keys Ii) as E1. pose proof (lookup_some id (info_sh s) infos infos_keys J') as E2. congruence. }
    subst i. cbn [info_sh i_id i_props] in *. rewrite Eid in *. replace (k - 1 + 1) with k in * by lia.
    assert (Ow : forall t, In t ts /\ tr_s t = entity_iri id k <-> In t x). { intro t. rewrite Ets. pose proof (Own _ t J) as O. cbn [fst snd] in O. replace (k - 1 + 1) with k in O by lia. exact O. }
    assert (Arcs : forall p o, arc ts (TmIri (entity id k)) p o <-> p = the_type /\ o = TmIri id \/ exists e, In e l /\ p = p_iri (fst e) /\ In o (snd e)).
    { intros p o. split.
      - intros (sb & Es & It). injection Es as <-. assert (It' : In {| tr_s := entity id k; tr_p := p; tr_o := o |} x) by (apply Ow; split; [exact It|reflexivity]). rewrite Ex in It'. destruct It' as [E|It']; [injection E as <- <-; left; split; reflexivity|].
        apply in_props in It'. destruct It' as (e & o' & Ie & Io & E). injection E as -> ->. right. exists e. auto.
      - intro H. exists (entity id k). split; [reflexivity|]. apply Ow. rewrite Ex. destruct H as [[-> ->]|(e & Ie & -> & Io)]; [left; reflexivity|]. right. apply in_props. exists e, o. auto. }
    split; [apply Arcs; left; auto|]. apply (entity_satisfies ts s (entity id k) l rest Is); [rewrite Eid; exact Arcs|exact P|exact Fv|exact Fr]. }
  exists ts. split; [unfold generate_shacl; fold infos; rewrite Er; reflexivity|]. split.
  - exists f. split.
    + intros l Nl Il. apply (allotted_perm cfg (List.map fst infos)); [|exact Al]. apply NoDup_Permutation; [apply infos_keys|exact Nl|]. intro id. rewrite Il. apply Keys.
    + intros id s I. split; [apply Nonneg, Keys; eauto|]. split.
      * intro m. split; [intro A; apply Types in A; destruct A as (k & _ & Em & K & _); injection Em as ->; eauto|]. intros (k & K & ->). apply (Good id s I k K).
      * intros k K. apply (Good id s I k K).
  - intros Ot kn s m I Fo. assert (C : exists c, arc ts m the_type (TmIri c) /\ (kn = NmIri c \/ forall s', ~ In (NmIri c, SNodeShape s') sch)).
    { destruct Fo as [(c & [It|It] & A)|[(i & It & _)|[(p & o & It & _)|(p & o & It & _)]]]; destruct (Ot _ _ _ I It) as (c' & Ec & H); destruct Ec as [Ec|Ec]; try discriminate; injection Ec as <-; eauto. }
    destruct C as (c & A & [->|No]); destruct (Types m c A) as (k & s' & -> & K & Is'); [|destruct (No _ Is')]. apply (Good c s I k K).
Qed.
End Graph.

(* ------------------------------------------------------------------ *)
(* What is counted                                                      *)

Definition pos_min (c : component) : bool := match c with KMinCount z => 0 <=? z | _ => false end.
Definition pos_max (c : component) : bool := match c with KMaxCount z => 0 <=? z | _ => false end.
Definition one {A} (o : option A) : Z := match o with Some _ => 1 | None => 0 end.
Lemma one_range {A} (o : option A) : 0 <= one o <= 1.
Proof. destruct o; cbn; lia. Qed.
Lemma counted_cards cs : forall m,
  one (fst (fold_left card_step cs m)) = Z.min 1 (one (fst m) + Z.of_nat (List.length (filter pos_min cs))) /\
  one (snd (fold_left card_step cs m)) = Z.min 1 (one (snd m) + Z.of_nat (List.length (filter pos_max cs))).
Proof.
  induction cs as [|c cs IH]; intro m; cbn [fold_left filter]; [pose proof (one_range (fst m)); pose proof (one_range (snd m)); cbn; lia|].
  destruct (IH (card_step m c)) as [-> ->]. pose proof (one_range (fst m)). pose proof (one_range (snd m)).
  destruct c; cbn [card_step pos_min pos_max]; try lia; destruct (0 <=? z); cbn [fst snd one List.length]; lia.
Qed.
Lemma counted_rest cs :
  (List.length (filter pos_min cs) + List.length (filter pos_max cs) + List.length (somes (List.map convert_component cs)) <= List.length cs)%nat /\
  ((List.length (filter pos_min cs) + List.length (filter pos_max cs) + List.length (somes (List.map convert_component cs)) = List.length cs)%nat <-> forall c, In c cs -> converted c).
Proof.
  induction cs as [|c cs [IH1 IH2]]; [cbn; split; [lia|split; [intros _ c []|reflexivity]]|].
  assert (X : (forall c', In c' (c :: cs) -> converted c') <-> converted c /\ forall c', In c' cs -> converted c').
  { split; [intro H; split; [apply H; left; reflexivity|intros c' I; apply H; right; exact I]|intros [A B] c' [<-|I]; auto]. }
  rewrite X, <- IH2.
  destruct c; cbn [filter pos_min pos_max List.map convert_component somes List.length converted];
    try (split; [lia|]; split; [intro; split; [exact Logic.I|lia]|intros [_ ?]; lia]);
    try (destruct (Z.leb_spec 0 z); cbn [List.length]; split; [lia| |lia|]; split; [intro; split; lia|intros [? ?]; lia|intro; split; lia|intros [? ?]; lia]).
  split; [lia|]. split; [lia|intros [[] _]].
Qed.
Lemma min_all cs : (forall c, In c cs -> converted c) -> filter pos_min cs = filter is_min cs /\ filter pos_max cs = filter is_max cs.
Proof.
  induction cs as [|c cs IH]; intro H; [split; reflexivity|]. destruct IH as [E1 E2]; [intros; apply H; right; assumption|]. pose proof (H c (or_introl eq_refl)) as Hc. cbn [filter].
  rewrite E1, E2. destruct c; cbn in *; try (split; reflexivity); destruct (Z.leb_spec 0 z); try lia; split; reflexivity.
Qed.
Lemma property_fair ps : 0 <= snd (property_counts ps) <= fst (property_counts ps) /\
  (snd (property_counts ps) = fst (property_counts ps) <-> (forall c, In c (ps_comps ps) -> converted c) /\ counts_once (ps_comps ps)).
Proof.
  set (cs := ps_comps ps). assert (E : property_counts ps = (Z.of_nat (List.length cs), one (fst (extract_cardinality cs)) + one (snd (extract_cardinality cs)) + Z.of_nat (List.length (somes (List.map convert_component cs))))) by reflexivity.
  rewrite E. cbn [fst snd]. rewrite extract_fold. destruct (counted_cards cs (None, None)) as [-> ->]. cbn [fst snd one]. destruct (counted_rest cs) as [A B]. split; [lia|]. split.
  - intro H. assert (C : forall c, In c cs -> converted c) by (apply B; lia). split; [exact C|]. destruct (min_all cs C) as [E1 E2]. unfold counts_once. rewrite <- E1, <- E2. lia.
  - intros [C O]. destruct (min_all cs C) as [E1 E2]. unfold counts_once in O. rewrite <- E1, <- E2 in O. apply B in C. lia.
Qed.
