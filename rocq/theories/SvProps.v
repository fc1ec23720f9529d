(* C103: descriptions of SPARQL services. *)
From Coq Require Import List String Bool ZArith Permutation.
Import ListNotations.
From Verif Require Import SvModel SvSpec SvLemmas.
Open Scope list_scope.

Section lib.
Context {L : lib}.
(* C103.  The full statement: when a graph describes one service, the description read is what the graph says; no graph stops the program; what is not described is not read.
   It holds for graphs without counts of properties, entities and documents and without partitions in the partitions of classes. *)
Theorem C103_read_partial g s d : the_service g s -> service_of g s d -> plain g -> exists d', parse g = Ok d' /\ service_of g s d'.
Proof. intros T S P. unfold parse. rewrite (instances_one g s T). now apply (service_read g s d). Qed.
Theorem C103_one_partial g d : parse g = Ok d -> exists s, the_service g s.
Proof.
  unfold parse. destruct (instances g) as [|s [|? ?]] eqn:E; try discriminate. intros _. exists s. intros x. rewrite <- instances_in, E. split; [intros [->|[]]; reflexivity|intros ->; now left].
Qed.

(* Whatever is read is in the graph. *)
Section sound.
Context (g : graph).
Definition told {A} (s : subject) (p : string) (R : term -> A -> Prop) (x : option A) : Prop := forall a, x = Some a -> exists t, says g s p t /\ R t a.
Definition told_property (s : subject) (x : property_part) : Prop :=
  pp_id x = s /\ says g s (void "property") (TSub (SIri (pp_property x))) /\ told s (void "triples") is_int (pp_triples x).
Definition told_class (s : subject) (x : class_part) : Prop := cp_id x = s /\ says g s (void "class") (TSub (SIri (cp_class x))).
Definition told_graph (s : subject) (x : graph_descr) : Prop :=
  gd_id x = s /\ told s (void "triples") is_int (gd_triples x) /\ told s (void "classes") is_int (gd_classes x) /\
  list_of g s (void "propertyPartition") told_property (gd_property_parts x) /\ list_of g s (void "classPartition") told_class (gd_class_parts x).
Definition told_named (s : subject) (x : named_graph) : Prop :=
  ng_id x = s /\ says g s (sd "name") (TSub (SIri (ng_name x))) /\ list_of g s (sd "graph") told_graph (ng_graphs x).
Definition told_dataset (s : subject) (x : dataset) : Prop :=
  ds_id x = s /\ told s (sd "defaultGraph") (fun t d => exists u, t = TSub u /\ told_graph u d) (ds_default x) /\ list_of g s (sd "namedGraph") told_named (ds_named x).
Definition told_collection (s : subject) (x : collection) : Prop := gc_id x = s /\ list_of g s (sd "namedGraph") told_named (gc_graphs x).
Definition told_service (s : subject) (d : service) : Prop :=
  told s dct_title is_text (sv_title d) /\ told s (sd "endpoint") is_iri (sv_endpoint d) /\
  told s (sd "defaultDataset") (fun t x => exists u, t = TSub u /\ told_dataset u x) (sv_dataset d) /\
  set_of g s (sd "supportedLanguage") language_of (sv_languages d) /\ set_of g s (sd "feature") feature_of (sv_features d) /\ set_of g s (sd "resultFormat") result_of (sv_results d) /\
  list_of g s (sd "availableGraphs") told_collection (sv_available d).

Lemma bind_ok {A B} (p : parser A) (k : A -> parser B) f b f' : bind p k f = (Ok b, f') -> exists a f1, p f = (Ok a, f1) /\ k a f1 = (Ok b, f').
Proof. unfold bind. destruct (p f) as [[a| |] f1]; try discriminate. intros E. now exists a, f1. Qed.
Lemma single_ok p f t f' : single g p f = (Ok t, f') -> exists s, f = TSub s /\ f' = f /\ says g s p t.
Proof.
  intros E. apply bind_ok in E. destruct E as (l & f1 & V & C). unfold values in V. injection V as <- <-. unfold check in C.
  destruct f as [s|l]; [|discriminate]. fold (found g s p) in C. destruct (found g s p) as [|x l] eqn:F; [discriminate|]. injection C as <- <-.
  exists s. split; [reflexivity|]. split; [reflexivity|]. apply found_in. rewrite F. now left.
Qed.
Lemma conv_ok {A} p (c : term -> option A) f a f' : bind (single g p) (fun t => check (c t)) f = (Ok a, f') -> exists s t, f = TSub s /\ f' = f /\ says g s p t /\ c t = Some a.
Proof.
  intros E. apply bind_ok in E. destruct E as (t & f1 & S & C). apply single_ok in S. destruct S as (s & -> & -> & S). unfold check in C. destruct (c t) as [x|] eqn:Ct; [|discriminate].
  injection C as -> <-. now exists s, t.
Qed.
Lemma iri_back t i : as_iri t = Some i -> t = TSub (SIri i).
Proof. destruct t as [[j|b]|l]; cbn; congruence. Qed.
Lemma subject_back t i : as_subject t = Some i -> t = TSub i.
Proof. destruct t as [s|l]; cbn; congruence. Qed.
Lemma int_back t i : as_int t = Some i -> is_int t i.
Proof. destruct t as [s|l]; cbn; [discriminate|]. intros E. now exists l. Qed.
Lemma text_back t i : as_text t = Some i -> is_text t i.
Proof. destruct t as [s|l]; cbn; [discriminate|]. intros [= <-]. now exists l. Qed.
Lemma conv_focus {A} p (c : term -> option A) f : snd (bind (single g p) (fun t => check (c t)) f) = f.
Proof. unfold single, bind, values, check. destruct f as [s|l]; cbn; [|reflexivity]. destruct (order _); cbn; [reflexivity|]. destruct (c t); reflexivity. Qed.
Lemma conv_safe {A} p (c : term -> option A) f : fst (bind (single g p) (fun t => check (c t)) f) <> Panic.
Proof. unfold single, bind, values, check. destruct f as [s|l]; cbn; [|discriminate]. destruct (order _); cbn; [discriminate|]. destruct (c t); discriminate. Qed.
Lemma optional_ok {A} p (c : term -> option A) (R : term -> A -> Prop) s x f' : (forall t a, c t = Some a -> R t a) ->
  optional (bind (single g p) (fun t => check (c t))) (TSub s) = (Ok x, f') -> f' = TSub s /\ told s p R x.
Proof.
  intros C E. pose proof (conv_focus p c (TSub s)) as F. pose proof (conv_ok p c (TSub s)) as O. unfold optional in E. destruct (bind _ _ (TSub s)) as [[a| |] f1]; cbn in F; subst f1.
  - unfold focus, values, ret, check in E; injection E as <- <-. split; [reflexivity|]. intros b [= <-]. destruct (O a _ eq_refl) as (s' & t & [= <-] & _ & S & Ct). exists t. auto.
  - unfold focus, values, ret, check in E; injection E as <- <-. split; [reflexivity|]. intros b. discriminate.
  - discriminate.
Qed.
Lemma each_ok {A} (q : parser A) (R : subject -> A -> Prop) ts : (forall t a f, In t ts -> q t = (Ok a, f) -> exists u, t = TSub u /\ R u a) -> forall f l f', each q ts f = (Ok l, f') ->
  exists us, ts = List.map TSub us /\ Forall2 R us l.
Proof.
  induction ts as [|t ts IH]; intros Q f l f' E; cbn [each] in E.
  - unfold focus, values, ret, check in E; injection E as <- <-. exists []. split; [reflexivity|constructor].
  - apply bind_ok in E. destruct E as (? & ? & Sf & E). unfold set_focus in Sf; injection Sf as _ <-. apply bind_ok in E. destruct E as (a & f1 & Qa & E). apply bind_ok in E. destruct E as (r & f2 & Er & E). unfold focus, values, ret, check in E; injection E as <- <-.
    destruct (Q t a f1 (or_introl eq_refl) Qa) as (u & -> & Ra). destruct (IH (fun t a f I => Q t a f (or_intror I)) f1 r f2 Er) as (us & -> & F).
    exists (u :: us). split; [reflexivity|now constructor].
Qed.
Lemma map_ok {A} s p (q : parser A) (R : subject -> A -> Prop) l f' : (forall t a f, q t = (Ok a, f) -> exists u, t = TSub u /\ R u a) ->
  map_property g p q (TSub s) = (Ok l, f') -> f' = TSub s /\ list_of g s p R l.
Proof.
  intros Q E. unfold map_property in E. apply bind_ok in E. destruct E as (? & ? & X & E). unfold focus, expect, values, check in X; injection X as <- <-. apply bind_ok in E. destruct E as (? & ? & X & E). rewrite values_sub in X. unfold focus, expect, values, check in X; injection X as <- <-.
  apply bind_ok in E. destruct E as (r & f1 & Er & E). unfold focus, values, ret, check in E; injection E as <- <-. destruct (each_ok q R _ (fun t a f _ => Q t a f) _ _ _ Er) as (us & U & F). split; [reflexivity|].
  exists us. split; [apply (NoDup_map_inv TSub); rewrite <- U; apply found_nodup|]. split; [|exact F]. intros t. now rewrite <- found_in, U.
Qed.
Lemma property_ok t x f : property_partition g t = (Ok x, f) -> exists u, t = TSub u /\ told_property u x.
Proof.
  intros E. unfold property_partition in E; cbv zeta in E. apply bind_ok in E. destruct E as (? & ? & X & E). unfold focus, expect, values, check in X; injection X as <- <-. apply bind_ok in E. destruct E as (i & f1 & Ei & E). apply conv_ok in Ei.
  destruct Ei as (s & v & -> & -> & S & Ci). apply bind_ok in E. destruct E as (n & f2 & En & E). apply (optional_ok _ _ is_int) in En; [|exact int_back]. destruct En as [-> T].
  cbn in E. unfold focus, values, ret, check in E; injection E as <- <-. exists s. split; [reflexivity|]. apply iri_back in Ci. subst v. split; [reflexivity|]. now split.
Qed.
Lemma class_ok t x f : class_partition g t = (Ok x, f) -> exists u, t = TSub u /\ told_class u x.
Proof.
  intros E. unfold class_partition in E; cbv zeta in E. apply bind_ok in E. destruct E as (? & ? & X & E). unfold focus, expect, values, check in X; injection X as <- <-. apply bind_ok in E. destruct E as (i & f1 & Ei & E). apply conv_ok in Ei.
  destruct Ei as (s & v & -> & -> & S & Ci). apply bind_ok in E. destruct E as (n & f2 & En & E). cbn in E. unfold focus, values, ret, check in E; injection E as <- <-. exists s. split; [reflexivity|].
  apply iri_back in Ci. subst v. now split.
Qed.
Lemma at_ok {A} t (p : parser A) f a f' : at_focus t p f = (Ok a, f') -> p t = (Ok a, f').
Proof. intros E. apply bind_ok in E. destruct E as (? & ? & X & E). unfold set_focus in X; injection X as _ <-. exact E. Qed.
Lemma graph_ok s x f f' : graph_description g s f = (Ok x, f') -> told_graph s x.
Proof.
  intros E. unfold graph_description in E; cbv zeta in E. apply at_ok in E. apply bind_ok in E. destruct E as (n & f1 & En & E). apply at_ok in En. apply (optional_ok _ _ is_int) in En; [|exact int_back]. destruct En as [_ Tn].
  apply bind_ok in E. destruct E as (c & f2 & Ec & E). apply at_ok in Ec. apply (optional_ok _ _ is_int) in Ec; [|exact int_back]. destruct Ec as [_ Tc].
  apply bind_ok in E. destruct E as (cs & f3 & Es & E). apply at_ok in Es. apply (map_ok _ _ _ told_class) in Es; [|exact class_ok]. destruct Es as [_ Ts].
  apply bind_ok in E. destruct E as (ps & f4 & Ep & E). apply at_ok in Ep. apply (map_ok _ _ _ told_property) in Ep; [|exact property_ok]. destruct Ep as [_ Tp].
  unfold focus, values, ret, check in E; injection E as <- <-. split; [reflexivity|]. split; [exact Tn|]. split; [exact Tc|]. now split.
Qed.
Lemma one_graph_ok t x f : one_graph g t = (Ok x, f) -> exists u, t = TSub u /\ told_graph u x.
Proof.
  intros E. unfold one_graph in E; cbv zeta in E. apply bind_ok in E. destruct E as (? & ? & X & E). unfold focus, expect, values, check in X; injection X as <- <-. apply bind_ok in E. destruct E as (s & ? & X & E). unfold expect in X. destruct t as [u|l]; [|discriminate].
  unfold focus, expect, values, check in X; injection X as <- <-. exists u. split; [reflexivity|]. exact (graph_ok _ _ _ _ E).
Qed.
Lemma named_ok t x f : named_graph_p g t = (Ok x, f) -> exists u, t = TSub u /\ told_named u x.
Proof.
  intros E. unfold named_graph_p in E; cbv zeta in E. apply bind_ok in E. destruct E as (? & ? & X & E). unfold focus, expect, values, check in X; injection X as <- <-. apply at_ok in E. apply bind_ok in E. destruct E as (i & f1 & Ei & E). apply conv_ok in Ei.
  destruct Ei as (s & v & -> & -> & S & Ci). apply bind_ok in E. destruct E as (gs & f2 & Eg & E). apply (map_ok _ _ _ told_graph) in Eg; [|exact one_graph_ok]. destruct Eg as [-> T].
  cbn in E. unfold focus, values, ret, check in E; injection E as <- <-. apply iri_back in Ci. subst v. exists s. split; [reflexivity|]. split; [reflexivity|]. now split.
Qed.
Lemma optional_any {A} (p : parser A) f x f' : optional p f = (Ok x, f') -> forall a, x = Some a -> exists f1, p f = (Ok a, f1).
Proof. unfold optional. destruct (p f) as [[a| |] f1]; intros [= <- <-] b E; [injection E as <-; now exists f1|discriminate]. Qed.
Lemma dataset_ok s x f f' : dataset_p g s f = (Ok x, f') -> told_dataset s x.
Proof.
  intros E. unfold dataset_p in E; cbv zeta in E. apply at_ok in E. apply bind_ok in E. destruct E as (d & f1 & Ed & E). apply bind_ok in E. destruct E as (ns & f2 & En & E). apply at_ok in En.
  apply (map_ok _ _ _ told_named) in En; [|exact named_ok]. destruct En as [_ T]. unfold focus, values, ret, check in E; injection E as <- <-. split; [reflexivity|]. split; [|exact T]. cbn. intros a ->.
  destruct (optional_any _ _ _ _ Ed a eq_refl) as (f3 & E). unfold default_graph, default_dataset in E. apply at_ok in E. apply bind_ok in E. destruct E as (u & f4 & Eu & E). apply conv_ok in Eu. destruct Eu as (s' & t & [= <-] & _ & S & C).
  apply subject_back in C. exists t. split; [exact S|]. exists u. split; [exact C|]. exact (graph_ok _ _ _ _ E).
Qed.
Lemma available_ok t x f : available_graph g t = (Ok x, f) -> exists u, t = TSub u /\ told_collection u x.
Proof.
  intros E. unfold available_graph in E; cbv zeta in E. apply bind_ok in E. destruct E as (? & ? & X & E). unfold focus, expect, values, check in X; injection X as <- <-. apply bind_ok in E. destruct E as (ns & f1 & En & E). apply bind_ok in E. destruct E as (s & f2 & Es & E).
  unfold expect in Es. destruct t as [u|l]; [|discriminate]. injection Es as <- <-. unfold focus, values, ret, check in E; injection E as <- <-. apply (map_ok _ _ _ told_named) in En; [|exact named_ok]. destruct En as [_ T].
  exists u. split; [reflexivity|]. now split.
Qed.
Lemma all_ok {A B} (c : A -> option B) l m : all c l = Some m -> Forall2 (fun x y => c x = Some y) l m.
Proof. revert m. induction l as [|x l IH]; cbn; intros m; [intros [= <-]; constructor|]. destruct (c x) eqn:E; [|discriminate]. destruct (all c l); [|discriminate]. intros [= <-]. constructor; auto. Qed.
Lemma iris_ok s p is f : iris g p (TSub s) = (Ok is, f) -> f = TSub s /\ NoDup is /\ (forall i, says g s p (TSub (SIri i)) <-> In i is) /\ forall t, says g s p t -> exists i, t = TSub (SIri i).
Proof.
  intros E. apply bind_ok in E. destruct E as (l & f1 & V & C). rewrite values_sub in V. injection V as <- <-. unfold check in C. destruct (all as_iri (found g s p)) as [x|] eqn:A; [|discriminate].
  injection C as -> <-. split; [reflexivity|]. apply all_ok in A. assert (M : found g s p = List.map (fun i => TSub (SIri i)) is).
  { induction A as [|t i l is X A IH]; [reflexivity|]. cbn. apply iri_back in X. now subst. }
  split; [apply (NoDup_map_inv (fun i => TSub (SIri i))); rewrite <- M; apply found_nodup|]. split.
  - intros i. rewrite <- found_in, M, in_map_iff. split; [intros (j & [= ->] & J); exact J|intros J; now exists i].
  - intros t T. apply found_in in T. rewrite M in T. apply in_map_iff in T. destruct T as (i & <- & _). now exists i.
Qed.
End sound.
Theorem C103_sound_partial g d : parse g = Ok d -> exists s, the_service g s /\ told_service g s d.
Proof.
  intros P. pose proof P as P'. unfold parse in P'. destruct (instances g) as [|s [|? ?]] eqn:I; try discriminate. exists s. split.
  { intros x. rewrite <- instances_in, I. split; [intros [->|[]]; reflexivity|intros ->; now left]. }
  destruct (service_description g (TSub s)) as [o f] eqn:E. cbn in P'. subst o.
  apply bind_ok in E. destruct E as (? & ? & X & E). unfold focus, expect, values, check in X; injection X as <- <-. apply bind_ok in E. destruct E as (? & ? & X & E). unfold focus, expect, values, check in X; injection X as <- <-. cbn zeta in E.
  apply bind_ok in E. destruct E as (e & f1 & Ee & E). apply (optional_ok g _ _ is_iri) in Ee; [|exact iri_back]. destruct Ee as [-> Te].
  apply bind_ok in E. destruct E as (ls & f2 & El & E). apply bind_ok in El. destruct El as (li & f3 & El & Cl). apply iris_ok in El. destruct El as (-> & Nl & Il & Tl).
  unfold check in Cl. destruct (all language_iri li) as [y|] eqn:Al; [|discriminate]. injection Cl as -> <-. apply all_ok in Al.
  apply bind_ok in E. destruct E as (rs & f4 & Er & E). apply bind_ok in Er. destruct Er as (ri & f5 & Er & Cr). apply iris_ok in Er. destruct Er as (-> & Nr & Ir & Tr). unfold ret in Cr; injection Cr as <- <-.
  apply bind_ok in E. destruct E as (fs & f6 & Ef & E). apply bind_ok in Ef. destruct Ef as (fi & f7 & Ef & Cf). apply iris_ok in Ef. destruct Ef as (-> & Nf & If & Tf). unfold ret in Cf; injection Cf as <- <-.
  apply bind_ok in E. destruct E as (ds & f8 & Ed & E). apply bind_ok in E. destruct E as (av & f9 & Ea & E). apply at_ok in Ea. apply (map_ok g _ _ _ (told_collection g)) in Ea; [|exact (available_ok g)].
  destruct Ea as [-> Ta]. apply bind_ok in E. destruct E as (ti & f10 & Et & E). apply at_ok in Et. apply (optional_ok g _ _ is_text) in Et; [|exact text_back]. destruct Et as [-> Tt].
  unfold focus, values, ret, check in E; injection E as <- <-. split; [exact Tt|]. split; [exact Te|]. split.
  - cbn. intros a ->. destruct (optional_any _ _ _ _ Ed a eq_refl) as (f3 & E). unfold default_graph, default_dataset in E. apply at_ok in E. apply bind_ok in E. destruct E as (u & f4 & Eu & E). apply conv_ok in Eu.
    destruct Eu as (s' & t & [= <-] & _ & S & C). apply subject_back in C. exists t. split; [exact S|]. exists u. split; [exact C|]. exact (dataset_ok g _ _ _ _ E).
  - split; [|split; [|split; [|exact Ta]]].
    + apply (set_made g _ _ _ li); auto. clear -Al. induction Al as [|x y l m X F IH]; constructor; [now apply language_read|exact IH].
    + apply (set_made g _ _ _ fi); auto. apply Forall2_own, feature_read.
    + apply (set_made g _ _ _ ri); auto. apply Forall2_own, result_read.
  - exact (TSub s).
Qed.
(* The program stops at literals that should be graphs only. *)
Section safe.
Context (g : graph).
Definition safe {A} (p : parser A) (f : term) : Prop := fst (p f) <> Panic.
Lemma safe_bind {A B} (p : parser A) (k : A -> parser B) f : safe p f -> (forall a f', p f = (Ok a, f') -> safe (k a) f') -> safe (bind p k) f.
Proof. unfold safe, bind. destruct (p f) as [[a| |] f1]; cbn; intros H K; [now apply K|discriminate|congruence]. Qed.
Lemma safe_optional {A} (p : parser A) f : safe p f -> safe (optional p) f.
Proof. unfold safe, optional. destruct (p f) as [[a| |] f1]; cbn; congruence. Qed.
Lemma safe_at {A} t (p : parser A) f : safe p t -> safe (at_focus t p) f.
Proof. intros H. apply safe_bind; [discriminate|]. intros a f' E. unfold set_focus in E; injection E as _ <-. exact H. Qed.
Lemma safe_each {A} (q : parser A) ts : (forall t, In t ts -> safe q t) -> forall f, safe (each q ts) f.
Proof.
  induction ts as [|t ts IH]; intros Q f; cbn; [discriminate|]. apply safe_bind; [discriminate|]. intros a f' E. unfold set_focus in E; injection E as _ <-. apply safe_bind; [apply Q; now left|]. intros b f1 _.
  apply safe_bind; [apply IH; intros u I; apply Q; now right|]. intros r f2 _. discriminate.
Qed.
Lemma safe_map {A} p (q : parser A) f : (forall s t, f = TSub s -> says g s p t -> safe q t) -> safe (map_property g p q) f.
Proof.
  intros Q. apply safe_bind; [discriminate|]. intros a f' E. unfold focus, values, ret, check in E; injection E as <- <-. apply safe_bind; [discriminate|]. intros l f' E. unfold focus, values, ret, check in E; injection E as <- <-.
  apply safe_bind; [|intros r f' _; apply safe_bind; [discriminate|]; intros; discriminate].
  apply safe_each. destruct f as [s|x]; [|intros t []]. intros t T. apply (Q s t eq_refl). apply found_in, T.
Qed.
Lemma safe_property t : safe (property_partition g) t.
Proof.
  apply safe_bind; [discriminate|]. intros a f' E. unfold focus, values, ret, check in E; injection E as <- <-. apply safe_bind; [apply conv_safe|]. intros i f1 E. apply conv_ok in E. destruct E as (s & v & -> & -> & _).
  apply safe_bind; [apply safe_optional, conv_safe|]. intros n f2 _. discriminate.
Qed.
Lemma safe_class t : safe (class_partition g) t.
Proof.
  apply safe_bind; [discriminate|]. intros a f' E. unfold focus, values, ret, check in E; injection E as <- <-. apply safe_bind; [apply conv_safe|]. intros i f1 E. apply conv_ok in E. destruct E as (s & v & -> & -> & _).
  apply safe_bind; [apply safe_map; intros; apply safe_property|]. intros n f2 _. discriminate.
Qed.
Lemma safe_graph s f : safe (graph_description g s) f.
Proof.
  apply safe_at. apply safe_bind; [apply safe_at, safe_optional, conv_safe|]. intros n f1 _. apply safe_bind; [apply safe_at, safe_optional, conv_safe|]. intros c f2 _.
  apply safe_bind; [apply safe_at, safe_map; intros; apply safe_class|]. intros cs f3 _. apply safe_bind; [apply safe_at, safe_map; intros; apply safe_property|]. intros ps f4 _. discriminate.
Qed.
Context (no_lit : forall s l, ~ says g s (sd "graph") (TLit l) /\ ~ says g s (sd "availableGraphs") (TLit l)).
Lemma safe_named t : safe (named_graph_p g) t.
Proof.
  apply safe_bind; [discriminate|]. intros a f' E. unfold focus, values, ret, check in E; injection E as <- <-. apply safe_at. apply safe_bind; [apply conv_safe|]. intros i f1 E. apply conv_ok in E. destruct E as (s & v & -> & -> & _).
  apply safe_bind; [|intros n f2 _; discriminate]. apply safe_map. intros u x _ X. apply safe_bind; [discriminate|]. intros a f' E. unfold focus, values, ret, check in E; injection E as <- <-.
  destruct x as [w|l]; [|destruct (proj1 (no_lit u l) X)]. apply safe_bind; [discriminate|]. intros ? ? _. apply safe_graph.
Qed.
Lemma safe_dataset s f : safe (dataset_p g s) f.
Proof.
  apply safe_at. apply safe_bind; [apply safe_optional, safe_at, safe_bind; [apply conv_safe|intros; apply safe_graph]|]. intros d f1 _.
  apply safe_bind; [apply safe_at, safe_map; intros; apply safe_named|]. intros; discriminate.
Qed.
Lemma safe_available s : safe (available_graph g) (TSub s).
Proof.
  apply safe_bind; [discriminate|]. intros a f' E. unfold focus, values, ret, check in E; injection E as <- <-. apply safe_bind; [apply safe_map; intros; apply safe_named|]. intros ns f1 _. discriminate.
Qed.
Lemma safe_iris p f : safe (iris g p) f.
Proof. apply safe_bind; [discriminate|]. intros l f' _. unfold safe, check. destruct (all as_iri l); discriminate. Qed.
Lemma safe_service s : safe (service_description g) (TSub s).
Proof.
  apply safe_bind; [discriminate|]. intros a f' E. unfold focus, values, ret, check in E; injection E as <- <-. apply safe_bind; [discriminate|]. intros a f' E. unfold focus, values, ret, check in E; injection E as <- <-. cbn zeta.
  apply safe_bind; [apply safe_optional, conv_safe|]. intros e f1 _. apply safe_bind; [apply safe_bind; [apply safe_iris|]; intros l f' _; unfold safe, check; destruct (all language_iri l); discriminate|].
  intros ls f2 _. apply safe_bind; [apply safe_bind; [apply safe_iris|]; intros; discriminate|]. intros rs f3 _. apply safe_bind; [apply safe_bind; [apply safe_iris|]; intros; discriminate|].
  intros fs f4 _. apply safe_bind; [apply safe_optional, safe_at, safe_bind; [apply conv_safe|intros; apply safe_dataset]|]. intros ds f5 _.
  apply safe_bind; [apply safe_at, safe_map; intros u t _ T; destruct t as [w|l]; [apply safe_available|destruct (proj2 (no_lit u l) T)]|]. intros av f6 _.
  apply safe_bind; [apply safe_at, safe_optional, conv_safe|]. intros; discriminate.
Qed.
End safe.
Theorem C103_panics_partial g : (forall s l, ~ says g s (sd "graph") (TLit l) /\ ~ says g s (sd "availableGraphs") (TLit l)) -> parse g <> Panic.
Proof. intros H. unfold parse. destruct (instances g) as [|s [|? ?]]; try discriminate. exact (safe_service g H s). Qed.
(* The MIE file of a service has its endpoint, its title and the names of its available graphs. *)
Theorem C103_mie d : mie_endpoint (service2mie d) = sv_endpoint d /\ mie_title (service2mie d) = sv_title d /\
  forall i, In i (mie_graphs (service2mie d)) <-> exists c n, In c (sv_available d) /\ In n (gc_graphs c) /\ ng_name n = i.
Proof.
  split; [reflexivity|]. split; [reflexivity|]. intros i. cbn. assert (X : forall cs names, mie_names cs names names = names ++ flat_map (fun c => List.map ng_name (gc_graphs c)) cs).
  { induction cs as [|c cs IH]; intros names; cbn; [now rewrite app_nil_r|]. now rewrite IH, app_assoc. }
  rewrite X. cbn. rewrite in_flat_map. split.
  - intros (c & C & H). apply in_map_iff in H. destruct H as (n & E & N). now exists c, n.
  - intros (c & n & C & N & E). exists c. split; [exact C|]. apply in_map_iff. now exists n.
Qed.
End lib.
Print Assumptions C103_read_partial.
Print Assumptions C103_one_partial.
Print Assumptions C103_sound_partial.
Print Assumptions C103_panics_partial.
Print Assumptions C103_mie.

(* A library where sets keep their order and single digits are numbers *)
Open Scope string_scope.
#[local] Instance simple : lib := { order := fun l => l; order_perm := fun l => Permutation_refl l;
  to_integer l := if String.eqb (lexical l) "3" then Some 3%Z else if String.eqb (lexical l) "7" then Some 7%Z else None }.
Definition T (s p : string) (o : term) : triple := {| t_s := SIri s; t_p := p; t_o := o |}.
Definition I (i : string) : term := TSub (SIri i).
Definition N (s : string) : term := TLit {| lexical := s; datatype := "http://www.w3.org/2001/XMLSchema#integer"; lang := None |}.
Definition demo : graph :=
  [T "s" rdf_type (I (sd "Service")); T "s" (sd "endpoint") (I "e"); T "s" (sd "supportedLanguage") (I (sd "SPARQL11Query")); T "s" (sd "feature") (I (sd "EmptyGraphs"));
   T "s" (sd "feature") (I "f"); T "s" (sd "defaultDataset") (I "d"); T "d" (sd "defaultGraph") (I "g"); T "g" (void "triples") (N "3");
   T "g" (void "classPartition") (I "c"); T "c" (void "class") (I "C"); T "g" (void "propertyPartition") (I "p"); T "p" (void "property") (I "q"); T "p" (void "triples") (N "7");
   T "s" (sd "availableGraphs") (I "a"); T "a" (sd "namedGraph") (I "n"); T "n" (sd "name") (I "x"); T "s" dct_title (TLit {| lexical := "t"; datatype := ""; lang := None |})].
Definition demo_service : service :=
  {| sv_title := Some "t"; sv_endpoint := Some "e";
     sv_dataset := Some {| ds_id := SIri "d"; ds_named := []; ds_default := Some {| gd_id := SIri "g"; gd_triples := Some 3%Z; gd_classes := None; gd_properties := None; gd_entities := None;
       gd_documents := None; gd_property_parts := [{| pp_id := SIri "p"; pp_property := "q"; pp_triples := Some 7%Z |}]; gd_class_parts := [{| cp_id := SIri "c"; cp_class := "C"; cp_properties := [] |}] |} |};
     sv_languages := [SPARQL11Query]; sv_features := [EmptyGraphs; OtherFeature "f"]; sv_results := [];
     sv_available := [{| gc_id := SIri "a"; gc_graphs := [{| ng_id := SIri "n"; ng_name := "x"; ng_graphs := [] |}] |}] |}.
Ltac look H := vm_compute in H; repeat (destruct H as [H|H]; [try discriminate H|]); try (destruct H; fail).
Ltac there := vm_compute; repeat (first [left; reflexivity|right]).
Ltac one := split; [there|let u := fresh in let H := fresh in intros u H; look H; injection H; intros; subst; reflexivity].
Ltac quiet := let t := fresh in let H := fresh in intros t H; look H.
Ltac members ss := exists ss; split; [repeat constructor; cbn; intuition discriminate|]; split;
  [let t := fresh in let H := fresh in intros t; split; [intros H; look H; injection H; intros; subst; cbn; tauto|intros H; cbn in H; repeat (destruct H as [H|H]; [subst t; there|]); destruct H]|].
Example C103_met : the_service demo (SIri "s") /\ service_of demo (SIri "s") demo_service /\ plain demo /\ parse demo = Ok demo_service /\ mie_graphs (service2mie demo_service) = ["x"].
Proof.
  split. { intros x. split; [intros H; look H; injection H; intros; subst; reflexivity|intros ->; there]. }
  split.
  { split; [exists (TLit {| lexical := "t"; datatype := ""; lang := None |}); split; [one|eexists; split; reflexivity]|].
    split; [exists (I "e"); split; [one|reflexivity]|]. split.
    { exists (I "d"). split; [one|]. exists (SIri "d"). split; [reflexivity|]. split; [reflexivity|]. split.
      - exists (I "g"). split; [one|]. exists (SIri "g"). split; [reflexivity|]. split; [reflexivity|]. split; [exists (N "3"); split; [one|eexists; split; reflexivity]|].
        split; [quiet|]. split; [quiet|]. split; [quiet|]. split; [quiet|]. split.
        + members [SIri "p"]. constructor; [|constructor]. split; [reflexivity|]. split; [one|].
          exists (N "7"). split; [one|eexists; split; reflexivity].
        + members [SIri "c"]. constructor; [|constructor]. split; [reflexivity|]. split; [one|]. members (@nil subject). constructor.
      - members (@nil subject). constructor. }
    split. { members [SIri (sd "SPARQL11Query")]. constructor; [|constructor]. eexists. split; [reflexivity|constructor]. }
    split. { members [SIri (sd "EmptyGraphs"); SIri "f"]. constructor; [|constructor; [|constructor]]; eexists; (split; [reflexivity|]).
      - left. cbn. tauto.
      - right. split; [|reflexivity]. cbn. intuition discriminate. }
    split. { members (@nil subject). constructor. }
    members [SIri "a"]. constructor; [|constructor]. split; [reflexivity|]. members [SIri "n"]. constructor; [|constructor]. split; [reflexivity|]. split; [one|].
    members (@nil subject). constructor. }
  split.
  { split; [intros s; repeat split; quiet|]. intros s u H. look H. injection H; intros; subst. split; quiet. }
  split; vm_compute; reflexivity.
Qed.

(* False: the partitions by property of a partition by class are not read (service_description_parser.rs:437-461 reads void:property there) *)
Definition nested : graph :=
  [T "s" rdf_type (I (sd "Service")); T "s" (sd "defaultDataset") (I "d"); T "d" (sd "defaultGraph") (I "g"); T "g" (void "classPartition") (I "c"); T "c" (void "class") (I "C");
   T "c" (void "propertyPartition") (I "p"); T "p" (void "property") (I "q")].
Definition graph_read (r : res service) : option graph_descr := match r with Ok d => match sv_dataset d with Some x => ds_default x | None => None end | _ => None end.
Theorem C103_partitions_refuted : exists g x c, graph_read (parse g) = Some x /\ gd_class_parts x = [c] /\ says g (cp_id c) (void "propertyPartition") (I "p") /\ cp_properties c = [].
Proof. exists nested. do 2 eexists. split; [vm_compute; reflexivity|]. split; [reflexivity|]. split; [there|reflexivity]. Qed.

(* False: every count that is told is read *)
Definition counted : graph :=
  [T "s" rdf_type (I (sd "Service")); T "s" (sd "defaultDataset") (I "d"); T "d" (sd "defaultGraph") (I "g"); T "g" (void "triples") (N "3"); T "g" (void "properties") (N "7");
   T "g" (void "entities") (N "7"); T "g" (void "documents") (N "3")].
Theorem C103_counts_refuted : exists g x, graph_read (parse g) = Some x /\ gd_triples x = Some 3%Z /\ says g (gd_id x) (void "properties") (N "7") /\ gd_properties x = None /\
  says g (gd_id x) (void "entities") (N "7") /\ gd_entities x = None /\ says g (gd_id x) (void "documents") (N "3") /\ gd_documents x = None.
Proof. exists counted. eexists. split; [vm_compute; reflexivity|]. repeat split; there. Qed.

(* False: what cannot be read is reported. One partition without its class and the default graph is gone; one named graph without its name and the dataset is gone. *)
Definition incomplete : graph :=
  [T "s" rdf_type (I (sd "Service")); T "s" (sd "defaultDataset") (I "d"); T "d" (sd "defaultGraph") (I "g"); T "g" (void "triples") (N "3"); T "g" (void "classPartition") (I "c")].
Definition unnamed : graph :=
  [T "s" rdf_type (I (sd "Service")); T "s" (sd "defaultDataset") (I "d"); T "d" (sd "defaultGraph") (I "g"); T "g" (void "triples") (N "3"); T "d" (sd "namedGraph") (I "n")].
Theorem C103_default_graph_refuted : exists g s d x, the_service g s /\ parse g = Ok d /\ sv_dataset d = Some x /\ says g (ds_id x) (sd "defaultGraph") (I "g") /\ ds_default x = None.
Proof.
  exists incomplete, (SIri "s"). do 2 eexists. split. { intros x. split; [intros H; look H; injection H; intros; subst; reflexivity|intros ->; there]. }
  split; [vm_compute; reflexivity|]. split; [reflexivity|]. split; [there|reflexivity].
Qed.
Theorem C103_dataset_refuted : exists g s d, the_service g s /\ parse g = Ok d /\ says g s (sd "defaultDataset") (I "d") /\ sv_dataset d = None.
Proof.
  exists unnamed, (SIri "s"). eexists. split. { intros x. split; [intros H; look H; injection H; intros; subst; reflexivity|intros ->; there]. }
  split; [vm_compute; reflexivity|]. split; [there|reflexivity].
Qed.

(* False: reading ends with a description or an error. A literal among the available graphs ends the program. *)
Theorem C103_panic_refuted : exists g, parse g = Panic.
Proof. exists [T "s" rdf_type (I (sd "Service")); T "s" (sd "availableGraphs") (N "3")]. vm_compute. reflexivity. Qed.

(* False: services may support further languages *)
Theorem C103_language_refuted : exists g, the_service g (SIri "s") /\ says g (SIri "s") (sd "supportedLanguage") (I (sd "SPARQL11Query")) /\
  says g (SIri "s") (sd "supportedLanguage") (I "other") /\ (forall d, parse g <> Ok d) /\ exists d, parse (firstn 2 g) = Ok d.
Proof.
  exists [T "s" rdf_type (I (sd "Service")); T "s" (sd "supportedLanguage") (I (sd "SPARQL11Query")); T "s" (sd "supportedLanguage") (I "other")].
  split. { intros x. split; [intros H; look H; injection H; intros; subst; reflexivity|intros ->; there]. }
  split; [there|]. split; [there|]. split; [intros d; vm_compute; discriminate|]. eexists. vm_compute. reflexivity.
Qed.
Print Assumptions C103_partitions_refuted.
Print Assumptions C103_counts_refuted.
Print Assumptions C103_default_graph_refuted.
Print Assumptions C103_dataset_refuted.
Print Assumptions C103_panic_refuted.
Print Assumptions C103_language_refuted.
