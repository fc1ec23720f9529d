(* Lemmas about reading descriptions of services. *)
From Coq Require Import List String Bool ZArith Permutation.
Import ListNotations.
From Verif Require Import SvModel SvSpec.
Open Scope list_scope.

Section lemmas.
Context {L : lib} (g : graph).
Lemma objects_in s p t : In t (objects g s p) <-> says g s p t.
Proof.
  unfold objects, says. rewrite in_map_iff. split.
  - intros (x & <- & H). apply filter_In in H. destruct H as [H E]. destruct x as [a b c]. cbn in *. destruct (subject_dec s a); [|discriminate]. apply String.eqb_eq in E. now subst.
  - intros H. eexists. split; [|apply filter_In; split; [exact H|]]; [reflexivity|]. cbn. destruct (subject_dec s s); [apply String.eqb_refl|congruence].
Qed.
Definition found (s : subject) (p : string) : list term := order (nodup term_dec (objects g s p)).
Lemma found_in s p t : In t (found s p) <-> says g s p t.
Proof.
  unfold found. rewrite <- objects_in, <- (nodup_In term_dec (objects g s p)). split; apply Permutation_in; [|symmetry]; apply order_perm.
Qed.
Lemma found_nodup s p : NoDup (found s p).
Proof. unfold found. eapply Permutation_NoDup; [symmetry; apply order_perm|apply NoDup_nodup]. Qed.
Lemma values_sub s p : values g p (TSub s) = (Ok (found s p), TSub s).
Proof. reflexivity. Qed.
Lemma found_silent s p : silent g s p -> found s p = [].
Proof. intros H. destruct (found s p) as [|t l] eqn:E; [reflexivity|]. destruct (H t). apply found_in. rewrite E. now left. Qed.
Lemma found_only s p t : only g s p t -> found s p = [t].
Proof.
  intros [H O]. pose proof (found_nodup s p) as N. pose proof (fun u => proj1 (found_in s p u)) as F. apply found_in in H.
  destruct (found s p) as [|a [|b l]]; [destruct H|..].
  - now rewrite (O a (F a (or_introl eq_refl))).
  - rewrite (O a (F a (or_introl eq_refl))), (O b (F b (or_intror (or_introl eq_refl)))) in N. inversion N as [|? ? X _]. destruct X. now left.
Qed.
Lemma single_only s p t : only g s p t -> single g p (TSub s) = (Ok t, TSub s).
Proof. intros H. unfold single, bind. now rewrite values_sub, (found_only _ _ _ H). Qed.
Lemma single_silent s p : silent g s p -> single g p (TSub s) = (Err, TSub s).
Proof. intros H. unfold single, bind. now rewrite values_sub, (found_silent _ _ H). Qed.
Lemma perhaps_read {A} s p (R : term -> A -> Prop) (c : term -> option A) x : (forall t a, R t a -> c t = Some a) -> perhaps g s p R x ->
  optional (bind (single g p) (fun t => check (c t))) (TSub s) = (Ok x, TSub s).
Proof.
  intros C H. unfold optional, bind. destruct x as [a|]; cbn in H.
  - destruct H as (t & O & Ra). rewrite (single_only _ _ _ O). unfold check. now rewrite (C _ _ Ra).
  - now rewrite (single_silent _ _ H).
Qed.
Lemma only_iri s p i : only g s p (TSub (SIri i)) -> single_iri g p (TSub s) = (Ok i, TSub s).
Proof. intros H. unfold single_iri, bind. now rewrite (single_only _ _ _ H). Qed.
Lemma int_read t n : is_int t n -> as_int t = Some n.
Proof. intros (l & -> & H). exact H. Qed.
Lemma text_read t x : is_text t x -> as_text t = Some x.
Proof. intros (l & -> & <-). reflexivity. Qed.
Lemma iri_read t i : is_iri t i -> as_iri t = Some i.
Proof. intros ->. reflexivity. Qed.
(* the values that are IRIs and blank nodes *)
Lemma found_subjects s p ss : NoDup ss -> (forall t, says g s p t <-> In t (List.map TSub ss)) -> exists ss', found s p = List.map TSub ss' /\ NoDup ss' /\ forall u, In u ss' <-> In u ss.
Proof.
  intros N H. assert (X : forall l : list term, (forall t, In t l -> exists u, t = TSub u) -> exists ss', l = List.map TSub ss').
  { induction l as [|t l IH]; intros A; [now exists []|]. destruct (A t (or_introl eq_refl)) as (u & ->). destruct IH as (us & ->); [intros x J; apply A; now right|]. now exists (u :: us). }
  destruct (X (found s p)) as (ss' & E). { intros t T. apply found_in, H, in_map_iff in T. destruct T as (u & <- & _). now exists u. }
  exists ss'. split; [exact E|]. split; [apply (NoDup_map_inv TSub); rewrite <- E; apply found_nodup|].
  intros u. transitivity (In (TSub u) (found s p)).
  - rewrite E, in_map_iff. split; [intros I; now exists u|]. intros (v & [= ->] & I). exact I.
  - rewrite found_in, H, in_map_iff. split; [intros (v & [= ->] & I); exact I|]. intros I. now exists u.
Qed.
Lemma each_read {A} (q : parser A) (R : subject -> A -> Prop) us : (forall u, In u us -> exists a f, q (TSub u) = (Ok a, f) /\ R u a) ->
  forall f, exists l f', each q (List.map TSub us) f = (Ok l, f') /\ Forall2 R us l.
Proof.
  induction us as [|u us IH]; intros H f; [exists [], f; split; [reflexivity|constructor]|].
  destruct (H u (or_introl eq_refl)) as (a & f1 & E & Ra). destruct (IH (fun v I => H v (or_intror I)) f1) as (l & f' & E' & F).
  exists (a :: l), f'. split; [|now constructor]. cbn. unfold bind, set_focus. now rewrite E, E'.
Qed.
Lemma map_read {A} s p (q : parser A) (R R' : subject -> A -> Prop) l : list_of g s p R l ->
  (forall u a, says g s p (TSub u) -> R u a -> exists b f, q (TSub u) = (Ok b, f) /\ R' u b) ->
  exists l', map_property g p q (TSub s) = (Ok l', TSub s) /\ list_of g s p R' l'.
Proof.
  intros (ss & N & H & F) Q. destruct (found_subjects _ _ _ N H) as (us & E & N' & I).
  destruct (each_read q R' us) with (f := TSub s) as (l' & f' & E' & F').
  { intros u U. assert (X : exists a, R u a). { apply I in U. clear -F U. induction F as [|x y ss l P F IH]; [destruct U|]. destruct U as [->|U]; [now exists y|auto]. }
    destruct X as (a & Ra). apply (Q u a); [|exact Ra]. apply H. apply in_map, I, U. }
  exists l'. split.
  - unfold map_property, bind at 1, focus. unfold bind at 1. rewrite values_sub. unfold bind at 1. rewrite E, E'. reflexivity.
  - exists us. split; [exact N'|]. split; [|exact F']. intros t. rewrite <- found_in, E. reflexivity.
Qed.
Lemma map_silent {A} s p (q : parser A) : silent g s p -> map_property g p q (TSub s) = (Ok [], TSub s).
Proof. intros H. unfold map_property, bind at 1, focus. unfold bind at 1. rewrite values_sub, (found_silent _ _ H). reflexivity. Qed.
Lemma silent_list {A} s p (R : subject -> A -> Prop) : silent g s p -> list_of g s p R [].
Proof. intros H. exists []. split; [constructor|]. split; [|constructor]. intros t. split; [intros X; destruct (H t X)|intros []]. Qed.
(* sets of IRIs *)
Lemma iris_read {A} s p (R : string -> A -> Prop) l : set_of g s p R l ->
  exists is, iris g p (TSub s) = (Ok is, TSub s) /\ NoDup is /\ (forall i, says g s p (TSub (SIri i)) <-> In i is) /\ (forall t, says g s p t -> exists i, t = TSub (SIri i)) /\
    forall i, In i is -> exists a, R i a.
Proof.
  intros (ss & N & H & F). assert (Y : forall t, says g s p t -> exists i a, t = TSub (SIri i) /\ R i a).
  { intros t T. apply H, in_map_iff in T. destruct T as (u & <- & U). clear -F U. induction F as [|x y ss l P F IH]; [destruct U|]. destruct U as [->|U]; [|auto].
    destruct P as (i & -> & X). now exists i, y. }
  assert (X : forall l, (forall t, In t l -> exists i, t = TSub (SIri i)) -> exists is, all as_iri l = Some is /\ l = List.map (fun i => TSub (SIri i)) is).
  { induction l0 as [|t l0 IH]; intros B; [now exists []|]. destruct (B t (or_introl eq_refl)) as (i & ->). destruct IH as (is & E & ->); [intros x J; apply B; now right|].
    exists (i :: is). cbn. now rewrite E. }
  destruct (X (found s p)) as (is & E & M). { intros t T. apply found_in in T. destruct (Y t T) as (i & a & -> & _). now exists i. }
  assert (I : forall i, says g s p (TSub (SIri i)) <-> In i is).
  { intros i. rewrite <- found_in, M, in_map_iff. split; [intros (j & [= ->] & J); exact J|intros J; now exists i]. }
  exists is. split; [unfold iris, bind; rewrite values_sub, E; reflexivity|]. split; [apply (NoDup_map_inv (fun i => TSub (SIri i))); rewrite <- M; apply found_nodup|].
  split; [exact I|]. split; [intros t T; destruct (Y t T) as (i & a & -> & _); now exists i|]. intros i J. apply I in J. destruct (Y _ J) as (j & a & [= <-] & Z). now exists a.
Qed.
Lemma set_made {A} s p (R : string -> A -> Prop) is l : NoDup is -> (forall i, says g s p (TSub (SIri i)) <-> In i is) -> (forall t, says g s p t -> exists i, t = TSub (SIri i)) ->
  Forall2 R is l -> set_of g s p R l.
Proof.
  intros N I T F. exists (List.map SIri is). split; [apply FinFun.Injective_map_NoDup; [intros a b [= ->]; reflexivity|exact N]|]. split.
  - intros t. rewrite map_map, in_map_iff. split; [intros X; destruct (T t X) as (i & ->); exists i; split; [reflexivity|now apply I]|]. intros (i & <- & J). now apply I.
  - clear N I T. induction F as [|i a is l X F IH]; cbn; constructor; [|exact IH]. now exists i.
Qed.
Lemma language_read i a : language_of i a <-> language_iri i = Some a.
Proof.
  split; [intros []; reflexivity|]. unfold language_iri. destruct (String.eqb i (sd "SPARQL10Query")) eqn:A; [apply String.eqb_eq in A; subst; intros [= <-]; constructor|].
  destruct (String.eqb i (sd "SPARQL11Query")) eqn:B; [apply String.eqb_eq in B; subst; intros [= <-]; constructor|].
  destruct (String.eqb i (sd "SPARQL11Update")) eqn:C; [apply String.eqb_eq in C; subst; intros [= <-]; constructor|discriminate].
Qed.
Fixpoint lookup {A} (i : string) (l : list (string * A)) (d : A) : A := match l with [] => d | (j, a) :: l => if String.eqb i j then a else lookup i l d end.
Lemma lookup_right {A} i (l : list (string * A)) d : In (i, lookup i l d) l \/ (~ In i (List.map fst l) /\ lookup i l d = d).
Proof.
  induction l as [|[j a] l IH]; cbn; [tauto|]. destruct (String.eqb i j) eqn:E; [apply String.eqb_eq in E; subst; auto|].
  apply String.eqb_neq in E. destruct IH as [H|[H ->]]; [auto|]. right. split; [|reflexivity]. intros [X|X]; [congruence|contradiction].
Qed.
Lemma feature_read i : feature_of i (feature_iri i).
Proof. change (feature_iri i) with (lookup i known_features (OtherFeature i)). destruct (lookup_right i known_features (OtherFeature i)) as [H|H]; [left|right]; exact H. Qed.
Lemma result_read i : result_of i (result_iri i).
Proof. change (result_iri i) with (lookup i known_results (OtherResult i)). destruct (lookup_right i known_results (OtherResult i)) as [H|H]; [left|right]; exact H. Qed.
Lemma all_languages is : (forall i, In i is -> exists a, language_of i a) -> exists l, all language_iri is = Some l /\ Forall2 language_of is l.
Proof.
  induction is as [|i is IH]; intros H; [exists []; split; [reflexivity|constructor]|]. destruct (H i (or_introl eq_refl)) as (a & A).
  destruct IH as (l & E & F); [intros j J; apply H; now right|]. exists (a :: l). cbn. rewrite (proj1 (language_read i a) A), E. split; [reflexivity|now constructor].
Qed.
Lemma Forall2_own {A B} (R : A -> B -> Prop) f l : (forall x, R x (f x)) -> Forall2 R l (List.map f l).
Proof. intros H. induction l; cbn; constructor; auto. Qed.

(* the parsers *)
Lemma property_read s x : property_of g s x -> property_partition g (TSub s) = (Ok x, TSub s).
Proof.
  intros (I & O & P). unfold property_partition, bind at 1, focus. unfold bind at 1. rewrite (only_iri _ _ _ O). unfold bind at 1. unfold single_int.
  rewrite (perhaps_read s _ is_int as_int _ int_read P). cbn. destruct x; cbn in *. now subst.
Qed.
Lemma class_read s x : class_of g s x -> silent g s (void "propertyPartition") -> silent g s (void "property") -> exists y, class_partition g (TSub s) = (Ok y, TSub s) /\ class_of g s y.
Proof.
  intros (I & O & P) S1 S2. exists {| cp_id := s; cp_class := cp_class x; cp_properties := [] |}. split.
  - unfold class_partition, bind at 1, focus. unfold bind at 1. rewrite (only_iri _ _ _ O). unfold bind at 1. rewrite (map_silent _ _ _ S2). reflexivity.
  - split; [reflexivity|]. split; [exact O|]. apply silent_list, S1.
Qed.
Lemma graph_read s x f : plain g -> graph_of g s x -> exists y f', graph_description g s f = (Ok y, f') /\ graph_of g s y.
Proof.
  intros [P1 P2] (I & T & C & _ & _ & _ & Pp & Cp).
  destruct (map_read s _ (class_partition g) (class_of g) (class_of g) _ Cp) as (cs & Ec & Lc).
  { intros u a S R. destruct (P2 s u S) as [A B]. destruct (class_read u a R A B) as (y & E & Y). now exists y, (TSub u). }
  destruct (map_read s _ (property_partition g) (property_of g) (property_of g) _ Pp) as (ps & Ep & Lp).
  { intros u a S R. exists a, (TSub u). split; [exact (property_read u a R)|exact R]. }
  eexists _, _. split.
  - unfold graph_description, at_focus. cbn zeta. unfold bind at 1, set_focus. unfold bind at 1. unfold bind at 1.
    unfold single_int at 1. rewrite (perhaps_read s _ is_int as_int _ int_read T). unfold bind at 1. unfold bind at 1. unfold single_int. rewrite (perhaps_read s _ is_int as_int _ int_read C).
    unfold bind at 1. unfold bind at 1. rewrite Ec. unfold bind at 1. unfold bind at 1. rewrite Ep. reflexivity.
  - destruct (P1 s) as (A & B & D). repeat (split; [first [reflexivity|assumption]|]). cbn. exact Lc.
Qed.
Lemma named_read s x : plain g -> named_of g s x -> exists y f, named_graph_p g (TSub s) = (Ok y, f) /\ named_of g s y.
Proof.
  intros P (I & O & Gs). destruct (map_read s _ (one_graph g) (graph_of g) (graph_of g) _ Gs) as (gs & E & Lg).
  { intros u a _ R. destruct (graph_read u a (TSub u) P R) as (y & f & E & Y). exists y, f. split; [exact E|exact Y]. }
  eexists _, _. split.
  - unfold named_graph_p, bind at 1, focus, at_focus. unfold bind at 1, set_focus. unfold bind at 1. rewrite (only_iri _ _ _ O). unfold bind at 1. rewrite E. reflexivity.
  - split; [reflexivity|]. split; [exact O|exact Lg].
Qed.
Lemma dataset_read s x f : plain g -> dataset_of g s x -> exists y f', dataset_p g s f = (Ok y, f') /\ dataset_of g s y.
Proof.
  intros P (I & D & N). destruct (map_read s _ (named_graph_p g) (named_of g) (named_of g) _ N) as (ns & E & Ln).
  { intros u a _ R. exact (named_read u a P R). }
  assert (X : exists d f', optional (default_graph g (TSub s)) (TSub s) = (Ok d, f') /\ perhaps g s (sd "defaultGraph") (fun t d => exists u, t = TSub u /\ graph_of g u d) d).
  { unfold optional, default_graph, at_focus. unfold bind at 1, set_focus. unfold single_subject. unfold bind at 1. unfold bind at 1. destruct (ds_default x) as [d|].
    - destruct D as (t & O & u & -> & R). rewrite (single_only _ _ _ O). cbn [check as_subject]. destruct (graph_read u d (TSub s) P R) as (y & f' & Ey & Y). rewrite Ey.
      eexists _, _. split; [reflexivity|]. exists (TSub u). split; [exact O|]. exists u. now split.
    - rewrite (single_silent _ _ D). eexists _, _. split; [reflexivity|exact D]. }
  destruct X as (d & f' & Ed & Pd). eexists _, _. split.
  - unfold dataset_p, at_focus. cbn zeta. unfold bind at 1, set_focus. unfold bind at 1. rewrite Ed. unfold bind at 1. unfold bind at 1. rewrite E. reflexivity.
  - split; [reflexivity|]. split; [exact Pd|exact Ln].
Qed.
Lemma collection_read s x : plain g -> collection_of g s x -> exists y f, available_graph g (TSub s) = (Ok y, f) /\ collection_of g s y.
Proof.
  intros P (I & N). destruct (map_read s _ (named_graph_p g) (named_of g) (named_of g) _ N) as (ns & E & Ln).
  { intros u a _ R. exact (named_read u a P R). }
  eexists _, _. split; [unfold available_graph, bind at 1, focus; unfold bind at 1; rewrite E; reflexivity|]. split; [reflexivity|exact Ln].
Qed.
Lemma service_read s d : plain g -> service_of g s d -> exists d', fst (service_description g (TSub s)) = Ok d' /\ service_of g s d'.
Proof.
  intros P (T & E & D & Ls & Fs & Rs & Av).
  destruct (iris_read _ _ _ _ Ls) as (li & El & Nl & Il & Tl & Al). destruct (all_languages li Al) as (ls & Xl & Yl).
  destruct (iris_read _ _ _ _ Rs) as (ri & Er & Nr & Ir & Tr & _). destruct (iris_read _ _ _ _ Fs) as (fi & Ef & Nf & If & Tf & _).
  assert (X : exists x f', optional (default_dataset g (TSub s)) (TSub s) = (Ok x, f') /\ perhaps g s (sd "defaultDataset") (fun t x => exists u, t = TSub u /\ dataset_of g u x) x).
  { unfold optional, default_dataset, at_focus. unfold bind at 1, set_focus. unfold single_subject. unfold bind at 1. unfold bind at 1. destruct (sv_dataset d) as [x|].
    - destruct D as (t & O & u & -> & R). rewrite (single_only _ _ _ O). cbn [check as_subject]. destruct (dataset_read u x (TSub s) P R) as (y & f' & Ey & Y). rewrite Ey.
      eexists _, _. split; [reflexivity|]. exists (TSub u). split; [exact O|]. exists u. now split.
    - rewrite (single_silent _ _ D). eexists _, _. split; [reflexivity|exact D]. }
  destruct X as (x & f' & Ex & Px).
  destruct (map_read s _ (available_graph g) (collection_of g) (collection_of g) _ Av) as (av & Ea & La). { intros u a _ R. exact (collection_read u a P R). }
  eexists. split.
  - unfold service_description, bind at 1, focus. unfold bind at 1, check. cbn [as_subject]. cbn zeta. unfold bind at 1. unfold single_iri at 1.
    rewrite (perhaps_read s _ is_iri as_iri _ iri_read E). unfold bind at 1. unfold languages, bind at 1. rewrite El. unfold check at 1. rewrite Xl.
    unfold bind at 1. unfold results, bind at 1. rewrite Er. unfold ret at 1. unfold bind at 1. unfold features, bind at 1. rewrite Ef. unfold ret at 1.
    unfold bind at 1. rewrite Ex. unfold bind at 1. unfold available_graphs, at_focus, bind at 1, set_focus. rewrite Ea. unfold bind at 1. unfold bind at 1.
    unfold single_text. rewrite (perhaps_read s _ is_text as_text _ text_read T). reflexivity.
  - split; [exact T|]. split; [exact E|]. split; [exact Px|]. split; [exact (set_made _ _ _ _ _ Nl Il Tl Yl)|]. split.
    + apply (set_made _ _ _ fi); auto. apply Forall2_own, feature_read.
    + split; [|exact La]. apply (set_made _ _ _ ri); auto. apply Forall2_own, result_read.
Qed.
Lemma instances_in s : In s (instances g) <-> says g s rdf_type (TSub (SIri (sd "Service"))).
Proof.
  unfold instances, says. rewrite nodup_In, in_map_iff. split.
  - intros (x & <- & H). apply filter_In in H. destruct H as [H E]. apply andb_true_iff in E. destruct E as [E F]. apply String.eqb_eq in E. destruct x as [a b c]. cbn [t_s t_p t_o] in *.
    destruct (term_dec c (TSub (SIri (sd "Service")))); [|discriminate]. now subst.
  - intros H. eexists. split; [|apply filter_In; split; [exact H|]]; [reflexivity|]. apply andb_true_iff. split; [apply String.eqb_refl|]. cbn [t_o]. destruct (term_dec _ _) as [|X]; [reflexivity|congruence].
Qed.
Lemma instances_one s : the_service g s -> instances g = [s].
Proof.
  intros H. assert (N : NoDup (instances g)) by apply NoDup_nodup. pose proof (fun u => proj1 (instances_in u)) as F. assert (I : In s (instances g)) by (apply instances_in, H; reflexivity).
  destruct (instances g) as [|a [|b l]]; [destruct I|..].
  - now rewrite (proj1 (H a) (F a (or_introl eq_refl))).
  - rewrite (proj1 (H a) (F a (or_introl eq_refl))), (proj1 (H b) (F b (or_intror (or_introl eq_refl)))) in N. inversion N as [|? ? X _]. destruct X. now left.
Qed.
End lemmas.
