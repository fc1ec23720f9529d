(* Lemmas about merged data: what neighs returns, and what is asked. *)
From Coq Require Import List String Bool Lia.
Import ListNotations.
From Verif Require Import NbModel NbSpec NbLemmas.
Open Scope list_scope.

Definition outline (e : endpoint) : graph * bool := (e_graph e, e_up e).
Definition outline_b (b : backend) : graph * bool * bool := match b with InMemory g => (g, true, false) | Remote e => (e_graph e, e_up e, true) end.
Definition outline_d (d : data) := (outline_b (primary d), List.map outline (used d)).
Definition right_b (b : backend) : Prop := match b with InMemory _ => True | Remote e => cache_right e end.
Definition right_d (d : data) : Prop := right_b (primary d) /\ Forall cache_right (used d).

Lemma merge_outgoing_right es s preds : forall results, Forall cache_right es -> tidy results ->
  let (r, es') := merge_outgoing es s preds results in
  List.map outline es' = List.map outline es /\ Forall cache_right es' /\
  ((forall e, In e es -> e_up e = true) -> r <> None) /\
  forall m, r = Some m -> tidy m /\ forall p o, holds m p o <-> holds results p o \/ In p preds /\ exists g, In g (List.map e_graph es) /\ answers g s p o.
Proof.
  induction es as [|e es IH]; intros results F T; cbn.
  - split; [reflexivity|split; [constructor|split; [discriminate|]]]. intros m [= <-]. split; [exact T|].
    intros p o. split; [auto|]. intros [H|(_ & g & [] & _)]. exact H.
  - inversion F as [|? ? C Fs]; subst. pose proof (endpoint_outgoing_right e s preds C) as E.
    destruct (endpoint_outgoing e s preds) as [[[m0 rem]|] e']; destruct E as (G & U & C' & Y & R).
    + destruct (R m0 rem eq_refl) as (_ & T0 & R0).
      specialize (IH _ Fs (extend_all_tidy m0 results T)).
      destruct (merge_outgoing es s preds _) as [r es']. destruct IH as (O & F' & Y' & R'). cbn.
      split; [unfold outline in *; congruence|split; [constructor; assumption|split]].
      * intros A. apply Y'. intros x X. apply A. now right.
      * intros m E. destruct (R' m E) as [T' H']. split; [exact T'|]. intros p o. rewrite H', (extend_all_holds _ _ _ _ (proj1 T0)), R0. split.
        -- intros [[[H A]|H]|(H & g & I & A)]; [right; split; [exact H|]; eauto|auto|right; split; [exact H|]; eauto].
        -- intros [H|(H & g & [<-|I] & A)]; eauto 6.
    + cbn. split; [unfold outline; congruence|split; [constructor; assumption|split; [|discriminate]]].
      intros A. exfalso. apply Y; [apply A; now left|reflexivity].
Qed.

Definition answers_b (b : backend) (s : subject) (p : string) (o : term) : Prop :=
  match b with InMemory g => has g s p o | Remote e => answers (e_graph e) s p o end.
Lemma backend_outgoing_right b s preds : right_b b -> preds <> [] ->
  let (r, b') := backend_outgoing b s preds in
  outline_b b' = outline_b b /\ right_b b' /\ (up b -> r <> None) /\
  forall m rem, r = Some (m, rem) -> tidy m /\ (forall p o, holds m p o <-> In p preds /\ answers_b b s p o) /\
    forall p, In p rem <-> exists g o, b = InMemory g /\ has g s p o /\ ~ In p preds.
Proof.
  intros R NE. unfold backend_outgoing. destruct b as [g|e].
  - split; [reflexivity|split; [exact Logic.I|split; [discriminate|]]]. intros m rem E0.
    assert (E : outgoing_from (matching g (Some s) None None) preds = (m, rem)) by (destruct preds; [congruence|]; congruence). clear E0.
    destruct (outgoing_from_right (matching g (Some s) None None) preds) as (A & B & C). rewrite E in *. cbn [fst snd] in *.
    assert (M : forall t, In t (matching g (Some s) None None) <-> In t g /\ t_s t = s).
    { intros t. rewrite matching_right. unfold suits. split; [intros (H & [X|[= X]] & _); [discriminate|auto]|intros [H <-]; auto 6]. }
    split; [exact B|split].
    + intros p o. rewrite A. cbn. unfold has. split.
      * intros (H & t & I & <- & <-). split; [exact H|]. apply M in I. destruct I as [I <-]. destruct t; exact I.
      * intros [H I]. split; [exact H|]. eexists. split; [apply M; split; [exact I|reflexivity]|auto].
    + intros p. rewrite C. unfold has. split.
      * intros (H & t & I & <-). apply M in I. destruct I as [I <-]. exists g, (t_o t). split; [reflexivity|split; [destruct t; exact I|exact H]].
      * intros (g' & o & [= <-] & I & H). split; [exact H|]. eexists. split; [apply M; split; [exact I|reflexivity]|reflexivity].
  - cbn in R. pose proof (endpoint_outgoing_right e s preds R) as E. destruct (endpoint_outgoing e s preds) as [r e'].
    destruct E as (G & U & C & Y & H). cbn. split; [congruence|split; [exact C|split; [exact Y|]]].
    intros m rem X. destruct (H m rem X) as (-> & T & I). split; [exact T|split; [exact I|]].
    intros p. split; [intros []|]. intros (g & o & [=] & _).
Qed.
Lemma ups_used d : (forall e, In e (used d) -> e_up e = true) <-> Forall (fun x => snd x = true) (List.map outline (used d)).
Proof.
  rewrite Forall_forall. split.
  - intros H x X. apply in_map_iff in X. destruct X as (e & <- & X). cbn. auto.
  - intros H e E. apply (H (outline e)). now apply in_map.
Qed.
Lemma graphs_used d : List.map e_graph (used d) = List.map fst (List.map outline (used d)).
Proof. rewrite map_map. reflexivity. Qed.

Lemma data_outgoing_right d s preds : right_d d ->
  let (r, d') := data_outgoing d s preds in
  outline_d d' = outline_d d /\ right_d d' /\ (all_up d -> r <> None) /\
  forall m rem, r = Some (m, rem) -> tidy m /\
    (forall p o, holds m p o <-> In p preds /\ (answers_b (primary d) s p o \/ exists g, In g (List.map e_graph (used d)) /\ answers g s p o)) /\
    forall p, In p rem <-> exists g o, primary d = InMemory g /\ has g s p o /\ preds <> [] /\ ~ In p preds.
Proof.
  intros [Rb Rs]. unfold data_outgoing. destruct preds as [|p0 ps] eqn:PE.
  - split; [reflexivity|split; [split; assumption|split; [discriminate|]]]. intros m rem [= <- <-].
    split; [apply tidy_nil|split].
    + intros p o. split; [intros H; now apply no_arcs in H|intros [[] _]].
    + intros p. split; [intros []|]. intros (g & o & _ & _ & X & _). congruence.
  - rewrite <- PE. assert (NE : preds <> []) by congruence. clear PE p0 ps.
    pose proof (backend_outgoing_right (primary d) s preds Rb NE) as B.
    destruct (backend_outgoing (primary d) s preds) as [[[m0 rem0]|] b']; destruct B as (O & C & Y & H).
    + destruct (H m0 rem0 eq_refl) as (T0 & H0 & R0).
      pose proof (merge_outgoing_right (used d) s preds m0 Rs T0) as M.
      destruct (merge_outgoing (used d) s preds m0) as [r es]. destruct M as (O' & C' & Y' & H').
      split; [unfold outline_d; cbn; congruence|split; [split; assumption|split]].
      * intros [_ A]. specialize (Y' A). destruct r; [discriminate|congruence].
      * intros m rem E. destruct r as [m1|]; [|discriminate]. cbn in E. injection E as <- <-.
        destruct (H' m1 eq_refl) as [T1 H1]. split; [exact T1|split].
        -- intros p o. rewrite H1, H0. tauto.
        -- intros p. rewrite R0. split; intros (g & o & X); exists g, o; tauto.
    + split; [unfold outline_d; cbn; congruence|split; [split; assumption|split; [|discriminate]]].
      intros [A _]. specialize (Y A). congruence.
Qed.

Definition comes (g : graph) (node : term) (p : string) (n : term) : Prop :=
  exists t, In t g /\ fits_term node (t_o t) = true /\ t_p t = p /\ TSub (t_s t) = n.
Definition comes_b (b : backend) (node : term) (p : string) (n : term) : Prop :=
  match b with InMemory g => exists s, has g s p node /\ TSub s = n | Remote e => comes (e_graph e) node p n end.
Definition brings (ts : graph) (p : string) (n : term) : Prop := exists t, In t ts /\ t_p t = p /\ TSub (t_s t) = n.
Lemma endpoint_with_object_right e o :
  let (r, e') := endpoint_with_object e o in
  outline e' = outline e /\ e_cache e' = e_cache e /\ (e_up e = true -> r <> None) /\
  forall ts, r = Some ts -> forall p n, brings ts p n <-> comes (e_graph e) o p n.
Proof.
  unfold endpoint_with_object. destruct (e_up e) eqn:U; unfold outline; cbn; rewrite U.
  - split; [reflexivity|split; [reflexivity|split; [discriminate|]]]. intros ts [= <-] p n. unfold brings, comes. split.
    + intros (t & H & <- & <-). apply in_map_iff in H. destruct H as (x & <- & H). apply filter_In in H. destruct H. exists x. auto.
    + intros (t & H & F & <- & <-). eexists. split; [apply in_map; apply filter_In; split; [exact H|exact F]|auto].
  - split; [reflexivity|split; [reflexivity|split; [discriminate|discriminate]]].
Qed.
Lemma right_same e e' : outline e' = outline e -> e_cache e' = e_cache e -> cache_right e -> cache_right e'.
Proof. unfold outline, cache_right. intros [= G _] -> C. rewrite G. exact C. Qed.
Lemma merge_with_object_right es o : forall ts, Forall cache_right es ->
  let (r, es') := merge_with_object es o ts in
  List.map outline es' = List.map outline es /\ Forall cache_right es' /\
  ((forall e, In e es -> e_up e = true) -> r <> None) /\
  forall ts', r = Some ts' -> forall p n, brings ts' p n <-> brings ts p n \/ exists g, In g (List.map e_graph es) /\ comes g o p n.
Proof.
  induction es as [|e es IH]; intros ts F; cbn.
  - split; [reflexivity|split; [constructor|split; [discriminate|]]]. intros ts' [= <-] p n.
    split; [auto|]. intros [H|(g & [] & _)]. exact H.
  - inversion F as [|? ? C Fs]; subst. pose proof (endpoint_with_object_right e o) as E.
    destruct (endpoint_with_object e o) as [[more|] e']; destruct E as (G & Q & Y & R).
    + specialize (R more eq_refl). specialize (IH (ts ++ more) Fs).
      destruct (merge_with_object es o _) as [r es']. destruct IH as (O & F' & Y' & R'). cbn.
      split; [congruence|split; [constructor; [now apply (right_same e)|assumption]|split]].
      * intros A. apply Y'. intros x X. apply A. now right.
      * intros ts' E p n. rewrite (R' ts' E).
        assert (A : brings (ts ++ more) p n <-> brings ts p n \/ brings more p n).
        { unfold brings. split; [intros (t & H & X); apply in_app_iff in H; destruct H; eauto|].
          intros [(t & H & X)|(t & H & X)]; exists t; rewrite in_app_iff; auto. }
        rewrite A, R. split.
        -- intros [[H|H]|(g & I & H)]; [auto|right; eauto|right; eauto].
        -- intros [H|(g & [<-|I] & H)]; eauto.
    + cbn. split; [congruence|split; [constructor; [now apply (right_same e)|assumption]|split; [|discriminate]]].
      intros A. exfalso. apply Y; [apply A; now left|reflexivity].
Qed.
Lemma data_incoming_right d node preds : right_d d ->
  let (r, d') := data_incoming d node preds in
  outline_d d' = outline_d d /\ right_d d' /\ (all_up d -> r <> None) /\
  forall m, r = Some m -> tidy m /\
    (forall p n, holds m p n <-> In p preds /\ (comes_b (primary d) node p n \/ exists g, In g (List.map e_graph (used d)) /\ comes g node p n)).
Proof.
  intros [Rb Rs]. unfold data_incoming.
  assert (B : let (r, b') := backend_with_object (primary d) node in
    outline_b b' = outline_b (primary d) /\ right_b b' /\ (up (primary d) -> r <> None) /\
    forall ts, r = Some ts -> forall p n, brings ts p n <-> comes_b (primary d) node p n).
  { destruct (primary d) as [g|e]; cbn.
    - split; [reflexivity|split; [exact Logic.I|split; [discriminate|]]]. intros ts [= <-] p n. unfold brings, has. split.
      + intros (t & H & <- & <-). apply (matching_right g None None (Some node)) in H. destruct H as (H & _ & _ & [X|[= X]]); [discriminate|].
        exists (t_s t). split; [destruct t; cbn in *; subst; exact H|reflexivity].
      + intros (s & H & <-). exists {| t_s := s; t_p := p; t_o := node |}. split; [|auto].
        apply (matching_right g None None (Some node)). cbn. unfold suits. auto 6.
    - pose proof (endpoint_with_object_right e node) as E. destruct (endpoint_with_object e node) as [r e'].
      destruct E as (G & Q & Y & R). split; [|split; [exact (right_same _ _ G Q Rb)|split; [exact Y|exact R]]].
      cbn. unfold outline in G. congruence. }
  destruct (backend_with_object (primary d) node) as [[ts|] b']; destruct B as (O & C & Y & H).
  - specialize (H ts eq_refl). pose proof (merge_with_object_right (used d) node ts Rs) as M.
    destruct (merge_with_object (used d) node ts) as [r es]. destruct M as (O' & C' & Y' & H').
    split; [unfold outline_d; cbn; congruence|split; [split; assumption|split]].
    + intros [_ A]. specialize (Y' A). destruct r; [discriminate|congruence].
    + intros m E. destruct r as [ts'|]; [|discriminate]. cbn in E. injection E as <-.
      destruct (incoming_from_right ts' preds) as [I T]. split; [exact T|].
      intros p n. rewrite I. fold (brings ts' p n). rewrite (H' ts' eq_refl), H. tauto.
  - split; [unfold outline_d; cbn; congruence|split; [split; assumption|split; [|discriminate]]].
    intros [A _]. specialize (Y A). congruence.
Qed.

Lemma direct_in p ps : In p (direct_ones ps) <-> In (Direct p) ps.
Proof.
  unfold direct_ones. rewrite in_flat_map. split.
  - intros ([q|q] & H & X); [destruct X as [->|[]]; exact H|destruct X].
  - intros H. exists (Direct p). split; [exact H|]. now left.
Qed.
Lemma inverse_in p ps : In p (inverse_ones ps) <-> In (Inverse p) ps.
Proof.
  unfold inverse_ones. rewrite in_flat_map. split.
  - intros ([q|q] & H & X); [destruct X|destruct X as [->|[]]; exact H].
  - intros H. exists (Inverse p). split; [exact H|]. now left.
Qed.
(* what is seen of a node, directly and inversely *)
Definition sees (d : data) (node : term) (k : pred) (n : term) : Prop :=
  match k with
  | Direct p => exists s, node = TSub s /\ (answers_b (primary d) s p n \/ exists g, In g (List.map e_graph (used d)) /\ answers g s p n)
  | Inverse p => comes_b (primary d) node p n \/ exists g, In g (List.map e_graph (used d)) /\ comes g node p n
  end.
Lemma all_up_outline d d' : outline_d d' = outline_d d -> all_up d -> all_up d'.
Proof.
  unfold outline_d, all_up. intros [= B S] [U A]. split.
  - destruct (primary d), (primary d'); cbn in *; congruence.
  - apply ups_used. rewrite S. now apply ups_used.
Qed.
Lemma comes_b_outline b b' node p n : outline_b b' = outline_b b -> (comes_b b' node p n <-> comes_b b node p n).
Proof. destruct b, b'; cbn; intros [= H]; subst; try reflexivity. now rewrite H. Qed.

Lemma neighs_right d node preds : right_d d ->
  let (r, d') := neighs d node preds in
  outline_d d' = outline_d d /\ right_d d' /\ (all_up d -> r <> None) /\
  forall vs rem, r = Some (vs, rem) -> NoDup vs /\ (forall k n, In (k, n) vs <-> In k preds /\ sees d node k n) /\
    forall p, In p rem <-> exists g s o, primary d = InMemory g /\ node = TSub s /\ has g s p o /\ direct_ones preds <> [] /\ ~ In (Direct p) preds.
Proof.
  intros R. unfold neighs.
  assert (O : let (r, d') := match node with TSub s => data_outgoing d s (direct_ones preds) | TLit _ => (Some ([], []), d) end in
    outline_d d' = outline_d d /\ right_d d' /\ (all_up d -> r <> None) /\
    forall m rem, r = Some (m, rem) -> tidy m /\ (forall p o, holds m p o <-> In (Direct p) preds /\ sees d node (Direct p) o) /\
    forall p, In p rem <-> exists g s o, primary d = InMemory g /\ node = TSub s /\ has g s p o /\ direct_ones preds <> [] /\ ~ In (Direct p) preds).
  { destruct node as [s|l].
    - pose proof (data_outgoing_right d s (direct_ones preds) R) as D. destruct (data_outgoing d s (direct_ones preds)) as [r d'].
      destruct D as (A & B & C & D). split; [exact A|split; [exact B|split; [exact C|]]]. intros m rem E.
      destruct (D m rem E) as (T & H & I). split; [exact T|split].
      + intros p o. rewrite H, direct_in. cbn. split; [intros [X Y]; split; [exact X|exists s; auto]|intros (X & s' & [= <-] & Y); auto].
      + intros p. rewrite I. split.
        * intros (g & o & X & Y & Z & W). rewrite direct_in in W. exists g, s, o. auto.
        * intros (g & s' & o & X & [= <-] & Y & Z & W). rewrite <- direct_in in W. exists g, o. auto.
    - split; [reflexivity|split; [exact R|split; [discriminate|]]]. intros m rem [= <- <-]. split; [apply tidy_nil|split].
      + intros p o. split; [intros H; now apply no_arcs in H|intros (_ & s & [=] & _)].
      + intros p. split; [intros []|intros (g & s & o & _ & [=] & _)]. }
  destruct (match node with TSub s => data_outgoing d s (direct_ones preds) | TLit _ => (Some ([], []), d) end) as [[[m rem]|] d1];
    destruct O as (O1 & R1 & Y1 & H1).
  2:{ split; [exact O1|split; [exact R1|split; [intros A; now destruct (Y1 A)|discriminate]]]. }
  destruct (H1 m rem eq_refl) as (T & H & I). clear H1.
  assert (KD : forall a b, Direct a = Direct b -> a = b) by congruence.
  assert (KI : forall a b, Inverse a = Inverse b -> a = b) by congruence.
  destruct (inverse_ones preds) as [|i0 is0] eqn:IE.
  - split; [exact O1|split; [exact R1|split; [discriminate|]]]. intros vs rem' [= <- <-].
    split; [now apply listed_once|split; [|exact I]]. intros k n. rewrite (listed_in Direct m k n KD T). split.
    + intros (q & -> & X). now apply H.
    + intros (X & Y). destruct k as [p|p]; [exists p; split; [reflexivity|]; now apply H|].
      exfalso. apply inverse_in in X. rewrite IE in X. destruct X.
  - rewrite <- IE. clear i0 is0 IE.
    pose proof (data_incoming_right d1 node (inverse_ones preds) R1) as D.
    destruct (data_incoming d1 node (inverse_ones preds)) as [r d2]. destruct D as (O2 & R2 & Y2 & H2).
    split; [congruence|split; [exact R2|split]].
    + intros A. specialize (Y2 (all_up_outline _ _ O1 A)). destruct r; [discriminate|congruence].
    + intros vs rem' E. destruct r as [m'|]; [|discriminate]. cbn in E. injection E as <- <-.
      destruct (H2 m' eq_refl) as [T' H'].
      split; [|split; [|exact I]].
      * apply NoDup_join; [now apply listed_once|now apply listed_once|]. intros [k n] X Y.
        apply (listed_in Direct m k n KD T) in X. apply (listed_in Inverse m' k n KI T') in Y.
        destruct X as (q & -> & _), Y as (q' & [=] & _).
      * intros k n. rewrite in_app_iff, (listed_in Direct m k n KD T), (listed_in Inverse m' k n KI T').
        assert (G : List.map e_graph (used d1) = List.map e_graph (used d)) by (rewrite !graphs_used; unfold outline_d in O1; congruence).
        assert (CB : forall p, comes_b (primary d1) node p n <-> comes_b (primary d) node p n)
          by (intros p; apply comes_b_outline; unfold outline_d in O1; congruence).
        split.
        -- intros [(q & -> & X)|(q & -> & X)]; [now apply H|]. apply H' in X. destruct X as [X Y]. rewrite inverse_in in X.
           rewrite G, CB in Y. split; [exact X|exact Y].
        -- intros (X & Y). destruct k as [p|p]; [left|right]; (exists p; split; [reflexivity|]); [now apply H|].
           apply H'. rewrite inverse_in, G, CB. auto.
Qed.

(* requests one after the other *)
Lemma combine_fst {A B} (l : list A) (k : list B) : List.length l <= List.length k -> List.map fst (combine l k) = l.
Proof. revert k. induction l as [|x l IH]; intros [|y k] H; cbn in *; [reflexivity|reflexivity|lia|]. rewrite IH; [reflexivity|lia]. Qed.
Lemma with_ups_used {B} (f : endpoint -> B) ups d :
  (forall e u, f {| e_graph := e_graph e; e_up := u; e_cache := e_cache e; e_asked := e_asked e |} = f e) ->
  List.map f (used (with_ups ups d)) = List.map f (used d).
Proof.
  intros F. unfold with_ups. cbn [used]. rewrite map_map.
  rewrite (map_ext _ (fun x => f (fst x))); [|intros [e u]; apply F].
  rewrite <- (map_map fst f), combine_fst; [reflexivity|]. rewrite app_length, repeat_length. lia.
Qed.
Lemma with_ups_graphs ups d : graphs (with_ups ups d) = graphs d.
Proof.
  unfold graphs. rewrite with_ups_used by reflexivity. f_equal. unfold with_ups. cbn. destruct (primary d); reflexivity.
Qed.
Lemma with_ups_right ups d : right_d d -> right_d (with_ups ups d).
Proof.
  intros [B S]. split.
  - unfold with_ups. cbn. destruct (primary d); exact B.
  - unfold with_ups. cbn [used]. rewrite Forall_forall in *. intros x X. apply in_map_iff in X. destruct X as ([e u] & <- & X).
    apply in_combine_l in X. exact (S e X).
Qed.
Lemma outline_graphs d d' : outline_d d' = outline_d d -> graphs d' = graphs d.
Proof.
  unfold outline_d, graphs. intros [= B S]. rewrite !graphs_used, S. f_equal. destruct (primary d), (primary d'); cbn in *; congruence.
Qed.
Definition kind (d : data) : option graph := match primary d with InMemory g => Some g | Remote _ => None end.
Lemma outline_kind d d' : outline_d d' = outline_d d -> kind d' = kind d.
Proof. unfold outline_d, kind. intros [= B S]. destruct (primary d), (primary d'); cbn in *; congruence. Qed.
Lemma with_ups_kind ups d : kind (with_ups ups d) = kind d.
Proof. unfold kind, with_ups. cbn. destruct (primary d); reflexivity. Qed.
Lemma after_right rs : forall d, right_d d -> right_d (after d rs) /\ graphs (after d rs) = graphs d /\ kind (after d rs) = kind d.
Proof.
  induction rs as [|r rs IH]; intros d R; [cbn; auto|].
  change (after d (r :: rs)) with (after (serve d r) rs).
  pose proof (neighs_right (with_ups (fst (fst r)) d) (snd (fst r)) (snd r) (with_ups_right _ d R)) as N.
  unfold serve. destruct (neighs _ _ _) as [x d']. cbn [snd]. destruct N as (O & R' & _).
  destruct (IH d' R') as (A & B & C). split; [exact A|split].
  - rewrite B, (outline_graphs _ _ O). apply with_ups_graphs.
  - rewrite C, (outline_kind _ _ O). apply with_ups_kind.
Qed.
Lemma fresh_right d : fresh d -> right_d d.
Proof.
  intros [B S]. split.
  - destruct (primary d) as [g|e] eqn:E; cbn; [exact Logic.I|]. intros s m. rewrite (B e eq_refl). discriminate.
  - apply Forall_forall. intros e X s m. rewrite (S e X). discriminate.
Qed.

(* what is named is seen as it is *)
Lemma answers_has g s p o : (forall b, s <> SBlank b) -> (answers g s p o <-> has g s p o).
Proof.
  intros NB. unfold answers, has. destruct s as [i|b]; [|destruct (NB b eq_refl)]. cbn. split.
  - intros (t & H & E & <- & <-). apply same_subject_true in E. rewrite E. destruct t; exact H.
  - intros H. eexists. split; [exact H|]. cbn. split; [now apply same_subject_true|auto].
Qed.
Lemma comes_has g node p n : ~ blank node -> (comes g node p n <-> exists s, has g s p node /\ TSub s = n).
Proof.
  intros NB. unfold comes, has.
  assert (F : forall x, fits_term node x = true <-> node = x).
  { intros x. destruct node as [[i|b]|l]; cbn [fits_term]; try apply same_term_true. destruct NB. now exists b. }
  split.
  - intros (t & H & E & <- & <-). apply F in E. subst. exists (t_s t). split; [destruct t; exact H|reflexivity].
  - intros (s & H & <-). eexists. split; [exact H|]. cbn. rewrite F. auto.
Qed.
Lemma sees_arc d node k n : ~ blank node \/ (used d = [] /\ exists g, primary d = InMemory g) ->
  (sees d node k n <-> exists g, In g (graphs d) /\ arc g node k n).
Proof.
  intros Q.
  assert (X : (forall s p o, node = TSub s -> (answers_b (primary d) s p o <-> has (graph_of (primary d)) s p o)) /\
    (forall g s p o, In g (List.map e_graph (used d)) -> node = TSub s -> (answers g s p o <-> has g s p o)) /\
    (forall p n, comes_b (primary d) node p n <-> exists s, has (graph_of (primary d)) s p node /\ TSub s = n) /\
    (forall g p n, In g (List.map e_graph (used d)) -> (comes g node p n <-> exists s, has g s p node /\ TSub s = n))).
  { destruct Q as [Q|(E & g & P)].
    - assert (NB : forall s, node = TSub s -> forall b, s <> SBlank b) by (intros s -> b ->; apply Q; now exists b).
      split; [|split; [|split]].
      + intros s p o E. destruct (primary d); cbn; [reflexivity|]. apply answers_has. eauto.
      + intros g s p o _ E. apply answers_has. eauto.
      + intros p m. destruct (primary d); cbn; [reflexivity|]. now apply comes_has.
      + intros g p m _. now apply comes_has.
    - rewrite E, P. cbn. split; [reflexivity|split; [intros ? ? ? ? []|split; [reflexivity|intros ? ? ? []]]]. }
  destruct X as (A & B & C & D). unfold graphs. destruct k as [p|p]; cbn [sees].
  - split.
    + intros (s & E & [H|(g & I & H)]).
      * apply A in H; [|exact E]. eexists. split; [left; reflexivity|]. econstructor; eassumption.
      * apply B in H; [|exact I|exact E]. exists g. split; [right; exact I|]. econstructor; eassumption.
    + intros (g & [<-|I] & H); inversion H as [s q o E J|]; subst; exists s; (split; [reflexivity|]).
      * left. now apply A.
      * right. exists g. split; [exact I|]. now apply B.
  - split.
    + intros [H|(g & I & H)].
      * apply C in H. destruct H as (s & H & <-). eexists. split; [left; reflexivity|]. now constructor.
      * apply D in H; [|exact I]. destruct H as (s & H & <-). exists g. split; [right; exact I|]. now constructor.
    + intros (g & [<-|I] & H); inversion H as [|s q J]; subst.
      * left. apply C. exists s. auto.
      * right. exists g. split; [exact I|]. apply D; [exact I|]. exists s. auto.
Qed.

(* what was asked once is known *)
Definition knows (s : subject) (preds : list string) (e : endpoint) : Prop :=
  forall p, In p preds -> exists m, cached s (e_cache e) = Some m /\ arc_at p m <> None.
Definition knows_b (s : subject) (preds : list string) (b : backend) : Prop := match b with InMemory _ => True | Remote e => knows s preds e end.
Definition knows_d (s : subject) (preds : list string) (d : data) : Prop := knows_b s preds (primary d) /\ Forall (knows s preds) (used d).
Lemma knows_answers s preds e : knows s preds e -> exists m, endpoint_outgoing e s preds = (Some (m, []), e).
Proof.
  intros K. unfold endpoint_outgoing. destruct preds as [|p0 ps]; [eauto|]. set (preds := p0 :: ps) in *. clearbody preds. clear p0 ps.
  set (known := match cached s (e_cache e) with Some m => m | None => [] end). fold (unknown known preds).
  destruct (unknown known preds) as [|u us] eqn:U; [eauto|]. exfalso.
  assert (I : In u (unknown known preds)) by (rewrite U; now left). apply unknown_in in I. destruct I as [I N].
  destruct (K u I) as (m & C & A). unfold known in N. rewrite C in N. congruence.
Qed.
Lemma answered_knows s preds e r e' : endpoint_outgoing e s preds = (Some r, e') -> knows s preds e'.
Proof.
  unfold endpoint_outgoing. destruct preds as [|p0 ps]; [intros _ p []|]. set (preds := p0 :: ps) in *. clearbody preds. clear p0 ps.
  set (known := match cached s (e_cache e) with Some m => m | None => [] end). fold (unknown known preds).
  pose proof (unknown_in known preds) as U.
  destruct (unknown known preds) as [|u us] eqn:UE.
  - intros [= _ <-] p P. destruct (arc_at p known) as [os|] eqn:E.
    + unfold known in E. destruct (cached s (e_cache e)) as [m|]; [|discriminate]. exists m. split; [reflexivity|congruence].
    + destruct (proj2 (U p) (conj P E)).
  - rewrite <- UE in *. clear u us UE. destruct (e_up e); [|discriminate]. intros [= _ <-] p P. cbn [e_cache].
    rewrite cached_put. destruct (subject_dec s s); [|congruence]. eexists. split; [reflexivity|].
    apply insert_all_at. left. apply touch_all_at. destruct (arc_at p known) eqn:E; [left; congruence|right; now apply U].
Qed.
Lemma merge_knows s preds es : forall results r es', merge_outgoing es s preds results = (Some r, es') -> Forall (knows s preds) es'.
Proof.
  induction es as [|e es IH]; intros results r es'; cbn; [intros [= _ <-]; constructor|].
  destruct (endpoint_outgoing e s preds) as [[[m0 rem]|] e'] eqn:E; [|discriminate].
  destruct (merge_outgoing es s preds _) as [r1 es1] eqn:M. intros [= -> <-]. constructor; [now apply answered_knows in E|eauto].
Qed.
Lemma data_knows s preds d r d' : preds <> [] -> data_outgoing d s preds = (Some r, d') -> knows_d s preds d'.
Proof.
  intros NE. unfold data_outgoing. destruct preds as [|p0 ps]; [congruence|]. set (preds := p0 :: ps) in *. clearbody preds.
  destruct (backend_outgoing (primary d) s preds) as [[[m rem]|] b] eqn:B; [|discriminate].
  destruct (merge_outgoing (used d) s preds m) as [[m1|] es] eqn:M; [|discriminate]. intros [= _ <-]. split; [|now apply merge_knows in M].
  unfold backend_outgoing in B. destruct (primary d) as [g|e]; [assert (b = InMemory g) as -> by congruence; exact Logic.I|].
  destruct (endpoint_outgoing e s preds) as [r1 e1] eqn:E. injection B as -> <-. cbn. now apply answered_knows in E.
Qed.
Lemma merge_known s preds es : Forall (knows s preds) es -> forall results, exists r, merge_outgoing es s preds results = (Some r, es).
Proof.
  induction 1 as [|e es K F IH]; intros results; cbn; [eauto|]. destruct (knows_answers s preds e K) as (m & ->).
  destruct (IH (fold_left (fun r x => extend (fst x) (snd x) r) m results)) as (r & ->). eauto.
Qed.
Lemma data_known s preds d : knows_d s preds d -> exists r, data_outgoing d s preds = (Some r, d).
Proof.
  intros [B F]. unfold data_outgoing. destruct preds as [|p0 ps]; [eauto|]. set (preds := p0 :: ps) in *. clearbody preds.
  assert (X : exists m rem, backend_outgoing (primary d) s preds = (Some (m, rem), primary d)).
  { unfold backend_outgoing. destruct (primary d) as [g|e].
    - destruct preds; [eauto|]. destruct (outgoing_from _ _) as [m rem]. eauto.
    - cbn in B. destruct (knows_answers s preds e B) as (m & ->). eauto. }
  destruct X as (m & rem & ->). destruct (merge_known s preds (used d) F m) as (r & ->). cbn. exists (r, rem). destruct d; reflexivity.
Qed.
Lemma with_ups_knows s preds ups d : knows_d s preds d -> knows_d s preds (with_ups ups d).
Proof.
  intros [B F]. split.
  - unfold with_ups. cbn. destruct (primary d); exact B.
  - unfold with_ups. cbn [used]. rewrite Forall_forall in *. intros x X. apply in_map_iff in X. destruct X as ([e u] & <- & X).
    apply in_combine_l in X. exact (F e X).
Qed.
Lemma with_ups_requests ups d : requests (with_ups ups d) = requests d.
Proof.
  unfold requests. rewrite with_ups_used by reflexivity. f_equal. unfold with_ups. cbn. destruct (primary d); reflexivity.
Qed.
