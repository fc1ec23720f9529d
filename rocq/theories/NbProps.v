(* The neighbourhood of a node: properties. *)
From Coq Require Import List String Bool.
Import ListNotations.
From Verif Require Import NbModel NbSpec NbLemmas NbData.
Open Scope string_scope.

(* A pattern of a graph in memory gives the triples that suit it, each once. *)
Theorem C96_matching g s p o :
  (forall t, In t (matching g s p o) <-> In t g /\ suits s (t_s t) /\ suits p (t_p t) /\ suits o (t_o t)) /\ (NoDup g -> NoDup (matching g s p o)).
Proof. split; [intro t; apply matching_right|apply matching_once]. Qed.
Print Assumptions C96_matching.

(* After any requests, with endpoints failing at any time, an answer has exactly the arcs that the graphs together have, each once, and
   there is an answer if all endpoints are up.  The full statement is for all nodes; this one leaves blank nodes and endpoints out. *)
Theorem C96_neighs_partial d rs ups node preds : fresh d -> (~ blank node \/ (used d = [] /\ exists g, primary d = InMemory g)) ->
  let now := with_ups ups (after d rs) in
  (all_up now -> fst (neighs now node preds) <> None) /\
  forall vs rem, fst (neighs now node preds) = Some (vs, rem) ->
    NoDup vs /\ forall k n, In (k, n) vs <-> In k preds /\ exists g, In g (graphs d) /\ arc g node k n.
Proof.
  intros F Q now. destruct (after_right rs d (fresh_right d F)) as (R & G & K).
  pose proof (neighs_right now node preds (with_ups_right ups _ R)) as N. destruct (neighs now node preds) as [r d'].
  destruct N as (_ & _ & Y & H). split; [exact Y|]. intros vs rem E. destruct (H vs rem E) as (D & V & _). split; [exact D|].
  intros k n. rewrite V, sees_arc.
  - unfold now. rewrite with_ups_graphs, G. reflexivity.
  - destruct Q as [Q|(U & g & P)]; [left; exact Q|right]. split.
    + assert (L : List.map e_graph (used now) = []).
      { unfold now. rewrite with_ups_used by reflexivity. unfold graphs in G. injection G as _ G. rewrite G, U. reflexivity. }
      destruct (used now); [reflexivity|discriminate].
    + assert (X : kind now = Some g) by (unfold now; rewrite with_ups_kind, K; unfold kind; now rewrite P).
      unfold kind in X. destruct (primary now); [injection X as ->; eauto|discriminate].
Qed.
Print Assumptions C96_neighs_partial.

(* Data in memory: a closed shape that has a direct predicate is fine if and only if the node has no other predicates.
   The full statement is for all data and all shapes. *)
Theorem C96_closed_partial g s preds p0 : In (Direct p0) preds ->
  exists vs rem, fst (neighs {| primary := InMemory g; used := [] |} (TSub s) preds) = Some (vs, rem) /\
    (closed_fine rem = true <-> forall p o, has g s p o -> In (Direct p) preds) /\
    (forall p, In p rem <-> (exists o, has g s p o) /\ ~ In (Direct p) preds).
Proof.
  intros P. set (d := {| primary := InMemory g; used := [] |}).
  assert (R : right_d d) by (split; [exact Logic.I|constructor]).
  pose proof (neighs_right d (TSub s) preds R) as N. destruct (neighs d (TSub s) preds) as [r d']. destruct N as (_ & _ & Y & H).
  destruct r as [[vs rem]|]; [|exfalso; apply Y; [split; [exact Logic.I|intros e []]|reflexivity]].
  destruct (H vs rem eq_refl) as (_ & _ & I). exists vs, rem. split; [reflexivity|].
  assert (J : forall p, In p rem <-> (exists o, has g s p o) /\ ~ In (Direct p) preds).
  { intros p. rewrite I. split.
    - intros (g' & s' & o & [= <-] & [= <-] & A & _ & B). eauto.
    - intros [(o & A) B]. exists g, s, o. repeat split; try assumption. intros E. apply direct_in in P. rewrite E in P. destruct P. }
  split; [|exact J]. unfold closed_fine. split.
  - destruct rem as [|r rem]; [|discriminate]. intros _ p o A.
    destruct (in_dec String.string_dec p (direct_ones preds)) as [B|B]; [now apply direct_in|]. rewrite direct_in in B.
    destruct (proj2 (J p) (conj (ex_intro _ o A) B)).
  - intros A. destruct rem as [|r rem]; [reflexivity|]. destruct (proj1 (J r) (or_introl eq_refl)) as [(o & B) C]. destruct (C (A r o B)).
Qed.
Print Assumptions C96_closed_partial.

(* A graph in memory by itself, without the backend around it, is right for all predicates, none of them included. *)
Theorem C96_memory_closed g s preds : let rem := snd (outgoing_from (matching g (Some s) None None) preds) in
  closed_fine rem = true <-> forall p o, has g s p o -> In p preds.
Proof.
  intros rem. destruct (outgoing_from_right (matching g (Some s) None None) preds) as (_ & _ & J). fold rem in J.
  assert (M : forall t, In t (matching g (Some s) None None) <-> In t g /\ t_s t = s).
  { intros t. rewrite matching_right. unfold suits. split; [intros (H & [X|[= X]] & _); [discriminate|auto]|intros [H <-]; auto 6]. }
  unfold closed_fine, has. split.
  - destruct rem as [|r rem]; [|discriminate]. intros _ p o A.
    destruct (in_dec String.string_dec p preds) as [B|B]; [exact B|].
    destruct (proj2 (J p)). split; [exact B|]. eexists. split; [apply M; split; [exact A|reflexivity]|reflexivity].
  - intros A. destruct rem as [|r rem]; [reflexivity|]. destruct (proj1 (J r) (or_introl eq_refl)) as (B & t & I & <-).
    apply M in I. destruct I as [I <-]. destruct (B (A (t_p t) (t_o t) ltac:(destruct t; exact I))).
Qed.
Print Assumptions C96_memory_closed.

(* Once the direct arcs of a node were answered they are answered again, whatever endpoints are up, and nothing is asked. *)
Theorem C96_asked_once d s preds r d' ups : direct_ones preds <> [] -> inverse_ones preds = [] -> neighs d (TSub s) preds = (Some r, d') ->
  fst (neighs (with_ups ups d') (TSub s) preds) <> None /\ requests (snd (neighs (with_ups ups d') (TSub s) preds)) = requests d'.
Proof.
  intros NE I. unfold neighs. rewrite I. destruct (data_outgoing d s (direct_ones preds)) as [[[m rem]|] d1] eqn:E; [|discriminate].
  intros [= _ <-]. apply (data_knows _ _ _ _ _ NE) in E. apply (with_ups_knows s _ ups) in E. apply data_known in E. destruct E as ([m1 rem1] & ->).
  cbn. split; [discriminate|apply with_ups_requests].
Qed.
Print Assumptions C96_asked_once.

(* Witnesses *)
Definition tr (s p o : string) : triple := {| t_s := SIri s; t_p := p; t_o := TSub (SIri o) |}.
Definition ep (g : graph) (u : bool) : endpoint := {| e_graph := g; e_up := u; e_cache := []; e_asked := 0 |}.
Definition both : data := {| primary := InMemory [tr "s" "p" "a"]; used := [ep [tr "s" "p" "a"; tr "s" "p" "b"; tr "c" "q" "s"] true; ep [tr "s" "r" "d"] true] |}.

(* A closed shape without direct predicates is fine with nodes that have triples. *)
Theorem C96_closed_empty_refuted : exists g s p o, has g s p o /\
  neighs {| primary := InMemory g; used := [] |} (TSub s) [] = (Some ([], []), {| primary := InMemory g; used := [] |}) /\ closed_fine [] = true.
Proof. exists [tr "s" "p" "a"], (SIri "s"), "p", (TSub (SIri "a")). split; [left; reflexivity|split; reflexivity]. Qed.
Print Assumptions C96_closed_empty_refuted.

(* The triples of endpoints are not looked at for closed shapes. *)
Theorem C96_closed_endpoint_refuted : exists d s p o preds vs, fresh d /\ all_up d /\ (exists g, In g (graphs d) /\ has g s p o) /\ ~ In (Direct p) preds /\
  preds <> [] /\ fst (neighs d (TSub s) preds) = Some (vs, []).
Proof.
  exists both, (SIri "s"), "r", (TSub (SIri "d")), [Direct "p"], [(Direct "p", TSub (SIri "a")); (Direct "p", TSub (SIri "b"))].
  split; [split; [discriminate|]; intros e [<-|[<-|[]]]; reflexivity|]. split; [split; [exact Logic.I|]; intros e [<-|[<-|[]]]; reflexivity|].
  split; [exists [tr "s" "r" "d"]; split; [cbn; auto|left; reflexivity]|]. split; [intros [[=]|[]]|]. split; [discriminate|]. reflexivity.
Qed.
Print Assumptions C96_closed_endpoint_refuted.

(* Of a blank node endpoints give the arcs of all nodes. *)
Theorem C96_blank_refuted : exists d b p n vs rem, fresh d /\ all_up d /\
  fst (neighs d (TSub (SBlank b)) [Direct p]) = Some (vs, rem) /\ In (Direct p, n) vs /\ forall g, In g (graphs d) -> ~ arc g (TSub (SBlank b)) (Direct p) n.
Proof.
  exists both, "x", "p", (TSub (SIri "a")), [(Direct "p", TSub (SIri "a")); (Direct "p", TSub (SIri "b"))], [].
  split; [split; [discriminate|]; intros e [<-|[<-|[]]]; reflexivity|]. split; [split; [exact Logic.I|]; intros e [<-|[<-|[]]]; reflexivity|].
  split; [reflexivity|]. split; [left; reflexivity|]. intros g G A. inversion A as [s p o E H|]; subst. injection E as <-. unfold has in H.
  cbn in G. repeat destruct G as [<-|G]; try destruct G; cbn in H; repeat destruct H as [H|H]; try discriminate; destruct H.
Qed.
Print Assumptions C96_blank_refuted.

(* All triples: none is made up, and none is missing if all endpoints are up. *)
Theorem C96_triples d : (forall ts t, data_triples d = Some ts -> In t ts -> exists g, In g (graphs d) /\ In t g) /\
  (all_up d -> exists ts, data_triples d = Some ts /\ forall t, In t ts <-> exists g, In g (graphs d) /\ In t g).
Proof.
  assert (E : forall ts, fst (backend_triples (primary d)) = Some ts -> forall t, In t ts <-> In t (graph_of (primary d))).
  { intros ts H t. destruct (primary d) as [g|e]; cbn [backend_triples fst graph_of] in *.
    - assert (ts = matching g None None None) as -> by congruence. rewrite matching_right. unfold suits. intuition.
    - unfold endpoint_triples in H. destruct (e_up e); [|discriminate]. injection H as <-. reflexivity. }
  unfold data_triples. split.
  - intros ts t. destruct (fst (backend_triples (primary d))) as [b|] eqn:B; [|discriminate]. intros [= <-] H. apply in_app_iff in H. destruct H as [H|H].
    + exists (graph_of (primary d)). split; [left; reflexivity|]. exact (proj1 (E b eq_refl t) H).
    + apply in_flat_map in H. destruct H as (e & I & H). exists (e_graph e). split; [right; now apply in_map|].
      unfold endpoint_triples in H. destruct (e_up e); [exact H|destruct H].
  - intros [U V]. destruct (fst (backend_triples (primary d))) as [b|] eqn:B.
    + eexists. split; [reflexivity|]. intros t. rewrite in_app_iff, (E b eq_refl t), in_flat_map. split.
      * intros [H|(e & I & H)]; [exists (graph_of (primary d)); split; [left; reflexivity|exact H]|].
        exists (e_graph e). split; [right; now apply in_map|]. unfold endpoint_triples in H. destruct (e_up e); [exact H|destruct H].
      * intros (g & [<-|I] & H); [left; exact H|right]. apply in_map_iff in I. destruct I as (e & <- & I). exists e. split; [exact I|].
        unfold endpoint_triples. rewrite (V e I). exact H.
    + exfalso. destruct (primary d) as [g|e]; [discriminate|]. cbn in *. unfold endpoint_triples in B. rewrite U in B. discriminate.
Qed.
Print Assumptions C96_triples.
Example C96_triples_met : let d := {| primary := InMemory []; used := [ep [tr "s" "p" "a"] true] |} in all_up d /\ data_triples d = Some [tr "s" "p" "a"].
Proof. split; [split; [exact Logic.I|intros e [<-|[]]; reflexivity]|reflexivity]. Qed.

(* All triples are those of the endpoints that answer, without any error; arcs are an error. *)
Theorem C96_triples_refuted : exists d g t, fresh d /\ In g (graphs d) /\ In t g /\ data_triples d = Some [] /\ fst (neighs d (TSub (t_s t)) [Direct (t_p t)]) = None.
Proof.
  exists {| primary := InMemory []; used := [ep [tr "s" "p" "a"] false] |}, [tr "s" "p" "a"], (tr "s" "p" "a").
  split; [split; [discriminate|]; intros e [<-|[]]; reflexivity|]. cbn. auto 10.
Qed.
Print Assumptions C96_triples_refuted.

(* What changes at an endpoint after a request is not seen. *)
Definition now_has (g : graph) (e : endpoint) : endpoint := {| e_graph := g; e_up := e_up e; e_cache := e_cache e; e_asked := e_asked e |}.
Theorem C96_changed_refuted : exists d s preds g e vs, fresh d /\ used (snd (neighs d (TSub s) preds)) = [e] /\
  let later := {| primary := InMemory []; used := [now_has g e] |} in
  fst (neighs later (TSub s) preds) = Some (vs, []) /\ exists n, In (Direct "p", n) vs /\ ~ arc g (TSub s) (Direct "p") n.
Proof.
  exists {| primary := InMemory []; used := [ep [tr "s" "p" "a"] true] |}, (SIri "s"), [Direct "p"], [], 
    {| e_graph := [tr "s" "p" "a"]; e_up := true; e_cache := [(SIri "s", [("p", [TSub (SIri "a")])])]; e_asked := 1 |}, [(Direct "p", TSub (SIri "a"))].
  split; [split; [discriminate|]; intros e [<-|[]]; reflexivity|]. split; [reflexivity|]. split; [reflexivity|]. exists (TSub (SIri "a")). split; [left; reflexivity|].
  intros A. inversion A as [? ? ? ? H|]; subst. destruct H.
Qed.
Print Assumptions C96_changed_refuted.

(* The hypotheses are met *)
Example C96_matching_met : NoDup [tr "s" "p" "a"; tr "s" "p" "b"; tr "c" "p" "b"] /\
  matching [tr "s" "p" "a"; tr "s" "p" "b"; tr "c" "p" "b"] None (Some "p") (Some (TSub (SIri "b"))) = [tr "s" "p" "b"; tr "c" "p" "b"].
Proof. split; [|reflexivity]. repeat constructor; cbn; intuition discriminate. Qed.
(* an endpoint fails in between, its answer is missing, and later it is there *)
Example C96_neighs_met : fresh both /\ ~ blank (TSub (SIri "s")) /\
  let rs := [([true; false; true], TSub (SIri "s"), [Direct "p"]); ([true; true; false], TSub (SIri "s"), [Direct "p"; Direct "r"])] in
  fst (neighs (with_ups [true; false; true] both) (TSub (SIri "s")) [Direct "p"]) = None /\
  all_up (with_ups [] (after both rs)) /\
  fst (neighs (with_ups [] (after both rs)) (TSub (SIri "s")) [Direct "p"; Inverse "q"; Direct "r"]) =
    Some ([(Direct "p", TSub (SIri "a")); (Direct "p", TSub (SIri "b")); (Direct "r", TSub (SIri "d")); (Inverse "q", TSub (SIri "c"))], []) /\
  requests (after both rs) = [2; 1].
Proof.
  split; [split; [discriminate|]; intros e [<-|[<-|[]]]; reflexivity|]. split; [intros (b & [=])|].
  split; [reflexivity|]. split; [split; [exact Logic.I|]; intros e [<-|[<-|[]]]; reflexivity|]. split; reflexivity.
Qed.
Example C96_closed_met : exists vs, fst (neighs {| primary := InMemory [tr "s" "p" "a"; tr "s" "q" "b"; tr "c" "r" "s"]; used := [] |} (TSub (SIri "s")) [Direct "p"; Inverse "r"]) =
  Some (vs, ["q"]) /\ closed_fine ["q"] = false.
Proof. eexists. split; reflexivity. Qed.
Example C96_memory_closed_met : snd (outgoing_from (matching [tr "s" "p" "a"] (Some (SIri "s")) None None) []) = ["p"] /\
  snd (outgoing_from (matching [tr "s" "p" "a"] (Some (SIri "s")) None None) ["p"]) = [].
Proof. split; reflexivity. Qed.
Example C96_asked_once_met : direct_ones [Direct "p"; Direct "r"] <> [] /\ inverse_ones [Direct "p"; Direct "r"] = [] /\
  fst (neighs both (TSub (SIri "s")) [Direct "p"; Direct "r"]) <> None /\ requests (snd (neighs both (TSub (SIri "s")) [Direct "p"; Direct "r"])) = [1; 1].
Proof. repeat split; discriminate. Qed.
