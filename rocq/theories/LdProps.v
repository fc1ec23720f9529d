(* C101: loading data and querying it.  C102: the prefixes that users give. *)
From Coq Require Import List String Ascii Bool Arith Lia.
Import ListNotations.
From Verif Require Import LdModel LdSpec LdLemmas.
Open Scope list_scope.

Section lib.
Context {L : lib}.
(* C101.  The full statement: loading adds to the data (or puts in their place) what the sources say, a load that fails changes nothing, no load stops the program, and a query is answered
   over all the data that were loaded.  It holds as follows. *)
Theorem C101_merge_partial q r ss cs f m b :
  sources q = Some ss -> at_endpoint q = None -> extra q = None -> or true (merging q) = true -> or Turtle (in_format q) = f -> f <> Pg -> or Strict (in_mode q) = m ->
  base_is q r b -> init_rdf r <> None -> Forall2 (fun s c => opened s = Some c) ss cs -> (forall c, In c cs -> readable r f b m c) ->
  exists r', load_data q r = (Done, r') /\ kept r r' /\ used_of r' = used_of r /\
    (forall t, In t (graph_of r') <-> In t (graph_of r) \/ exists c, In c cs /\ says r f b c t) /\
    (forall k, get k (prefixes_of r') = match last_binding k (flat_map (declares r f b) cs) with Some v => Some v | None => get k (prefixes_of r) end).
Proof.
  intros Es Ee Ex Em Ef Np Eo B I F R. unfold load_data. rewrite (base_found _ _ _ B), Es, Ee, Ex, Em, Ef, Eo.
  destruct (each_right f b m ss cs F r I R) as (r' & E & K & _ & U & G & P).
  exists r'. replace (match f with Pg => _ | _ => _ end) with (load_rdf ss f b m true None r) by (destruct f; congruence).
  unfold load_rdf. rewrite E. auto.
Qed.
Lemma each_replace f b m ss cs : Forall2 (fun s c => opened s = Some c) ss cs -> forall r, init_rdf r <> None -> (forall c, In c cs -> readable r f b m c) ->
  exists r', each (read_rdf f b m false) ss r = (Done, r') /\ kept r r'.
Proof.
  induction 1 as [|s c ss cs O F IH]; intros r I R; [exists r; split; [reflexivity|apply kept_refl]|].
  destruct (read_right f b m false c r I (R c (or_introl eq_refl))) as (r1 & E & K & _). cbn [each]. rewrite O, E.
  destruct (IH r1) as (r' & E' & K').
  { rewrite (kept_init _ _ K). exact I. } { intros x H. apply (kept_readable r); [exact K|]. apply R. now right. }
  exists r'. split; [exact E'|eapply kept_trans; eassumption].
Qed.
(* without merging, the data are those of the last source *)
Theorem C101_replace_partial q r ss s cs c f m b :
  sources q = Some (ss ++ [s]) -> at_endpoint q = None -> extra q = None -> merging q = Some false -> or Turtle (in_format q) = f -> f <> Pg -> or Strict (in_mode q) = m ->
  base_is q r b -> init_rdf r <> None -> Forall2 (fun s c => opened s = Some c) ss cs -> opened s = Some c -> (forall x, In x (c :: cs) -> readable r f b m x) ->
  exists r', load_data q r = (Done, r') /\ kept r r' /\ used_of r' = [] /\ (forall t, In t (graph_of r') <-> says r f b c t).
Proof.
  intros Es Ee Ex Em Ef Np Eo B I F O R. unfold load_data. rewrite (base_found _ _ _ B), Es, Ee, Ex, Em, Ef, Eo.
  destruct (each_replace f b m ss cs F r I) as (r1 & E1 & K1); [intros x H; apply R; now right|].
  destruct (read_right f b m false c r1) as (r' & E & K & _ & U & G & _).
  { rewrite (kept_init _ _ K1). exact I. } { apply (kept_readable r); [exact K1|]. apply R. now left. }
  exists r'. cbn [or]. replace (match f with Pg => _ | _ => _ end) with (load_rdf (ss ++ [s]) f b m false None r) by (destruct f; congruence).
  unfold load_rdf. rewrite (each_app _ true), E1, O, E. split; [reflexivity|]. split; [eapply kept_trans; eassumption|]. split; [exact U|].
  intros t. rewrite G, (kept_says _ _ _ _ _ _ K1). cbn. tauto.
Qed.
(* some loads that fail change nothing *)
Theorem C101_failed_partial q r :
  (exists b, in_base q = Some b /\ iri_ok b = false) \/ (sources q = None <-> at_endpoint q = None) \/ (exists s ss, sources q = Some (s :: ss) /\ at_endpoint q = None /\ opened s = None) ->
  load_data q r = (Fail, r).
Proof.
  intros H. unfold load_data. destruct H as [(b & -> & ->)|[H|(s & ss & -> & -> & O)]]; [reflexivity|..].
  - destruct (match in_base q with Some b => _ | None => _ end); [|reflexivity]. destruct (sources q), (at_endpoint q); try reflexivity; [pose proof (proj2 H eq_refl); discriminate|].
    destruct H as (H & _). specialize (H eq_refl). discriminate.
  - destruct (match in_base q with Some b => _ | None => _ end); [|reflexivity].
    destruct (or Turtle (in_format q)); unfold load_rdf; cbn [each]; rewrite O; reflexivity.
Qed.
(* loads that stop the program *)
Lemma read_outcome f b m merge c r o r' : read_rdf f b m merge c r = (o, r') -> (o = Panic -> f = TriG \/ f = N3) /\ (o = Done -> is_rdf r').
Proof.
  unfold read_rdf, is_rdf. destruct (start_rdf merge r) as [d|]; [|intros E; injection E as <- <-; split; discriminate].
  destruct (match f with Turtle => _ | _ => _ end) as [x|]; [|intros E; injection E as <- <-; split; discriminate].
  destruct (merge_from_reader f b m x (primary d)) as [o1 y] eqn:M. intros E; injection E as <- <-. split; [|intros _; eexists; reflexivity].
  intros ->. unfold merge_from_reader in M. destruct f; try (destruct (feed _ _ _) as [[] ?]; discriminate); auto; [|discriminate].
  destruct (feed _ _ _) as [[] ?]; [destruct (declared b x)|]; discriminate.
Qed.
Lemma each_outcome f b m merge ss : forall r o r', each (read_rdf f b m merge) ss r = (o, r') -> (o = Panic -> f = TriG \/ f = N3) /\ (o = Done -> ss <> [] -> is_rdf r').
Proof.
  induction ss as [|s ss IH]; intros r o r' E; cbn [each] in E; [injection E as <- <-; split; [discriminate|congruence]|].
  destruct (opened s) as [c|]; [|injection E as <- <-; split; discriminate].
  destruct (read_rdf f b m merge c r) as [o1 r1] eqn:R. destruct (read_outcome _ _ _ _ _ _ _ _ R) as (A & B). destruct o1.
  - destruct (IH _ _ _ E) as (C & D). split; [exact C|]. intros Eo _. destruct ss; [cbn in E; injection E as <- <-; auto|apply D; [exact Eo|discriminate]].
  - injection E as <- <-. split; discriminate.
  - injection E as <- <-. split; [auto|discriminate].
Qed.
Theorem C101_panics_partial q r r' : load_data q r = (Panic, r') ->
  in_format q = Some TriG \/ in_format q = Some N3 \/ (sources q = Some [] /\ extra q <> None /\ ~ is_rdf r).
Proof.
  unfold load_data. destruct (match in_base q with Some b => _ | None => _ end) as [b|]; [|discriminate].
  destruct (sources q) as [ss|] eqn:Es, (at_endpoint q) as [e|]; try discriminate.
  - intros E. assert (Q : forall f, load_rdf ss f b (or Strict (in_mode q)) (or true (merging q)) (extra q) r = (Panic, r') ->
      f = TriG \/ f = N3 \/ (ss = [] /\ extra q <> None /\ ~ is_rdf r)).
    { intros f H. clear E. unfold load_rdf in H. destruct (each _ ss r) as [o r1] eqn:X. destruct (each_outcome _ _ _ _ _ _ _ _ X) as (A & B). destruct o; [|discriminate|destruct (A eq_refl); auto].
      destruct (extra q) as [ps|]; [|discriminate]. destruct (all_prefixes ps []); [|discriminate]. right; right. destruct ss as [|s ss].
      - cbn in X. injection X as <-. split; [reflexivity|]. split; [discriminate|]. intros (d & D). rewrite D in H. discriminate.
      - destruct (B eq_refl) as (d & D); [discriminate|]. rewrite D in H. discriminate. }
    destruct (in_format q) as [f|] eqn:Ef; cbn [or] in E.
    + destruct f; try (destruct (Q _ E) as [X|[X|(X1 & X2 & X3)]]; [discriminate..|]; right; right; subst ss; repeat split; assumption); auto.
      assert (Z : forall ss r, fst (each (read_pg (or true (merging q))) ss r) <> Panic).
      { clear. induction ss as [|s ss IH]; intros r; cbn; [discriminate|]. destruct (opened s) as [c|]; [|discriminate]. unfold read_pg.
        destruct (utf8 c); [destruct (parse_pg c)|]; cbn; try discriminate. apply IH. }
      specialize (Z ss r). rewrite E in Z. cbn in Z. congruence.
    + destruct (Q _ E) as [X|[X|(X1 & X2 & X3)]]; [discriminate..|]. right; right. subst ss. repeat split; assumption.
  - unfold load_endpoint. destruct (init_rdf r); [|discriminate]. destruct (endpoint_named e r0); discriminate.
Qed.
(* queries *)
Definition good (P : memory -> Prop) (r : rudof) : Prop := forall d, held r = Some (Rdf d) -> P (primary d).
Definition closed (P : memory -> Prop) : Prop := P no_memory /\ (forall b x, P x -> P (set_base b x)) /\ (forall p x, P x -> P (set_pm p x)) /\
  (forall m es x, P x -> P (set_graph (snd (feed m es (graph x))) x)).
Lemma read_good P f b m merge c r : closed P -> good P r -> good P (snd (read_rdf f b m merge c r)).
Proof.
  intros (C0 & Cb & Cp & Cg) G. unfold read_rdf. destruct (start_rdf merge r) as [d|] eqn:S; [|exact G].
  assert (Pd : P (primary d)). { destruct (start_kept _ _ _ S) as [(_ & H)|(H & _)]; [exact (G d H)|]. rewrite (proj1 (init_empty _ _ H)). exact C0. }
  destruct (match f with Turtle => _ | _ => _ end) as [x|]; [|intros e E; injection E as <-; exact Pd].
  assert (Q : P (snd (merge_from_reader f b m x (primary d)))).
  { pose proof (Cg m (events f b x) _ Pd) as H. unfold merge_from_reader. destruct f; try exact Pd; destruct (feed m _ (graph (primary d))) as [[] g]; cbn [snd] in *; auto.
    destruct (declared b x); cbn [snd]; auto. }
  destruct (merge_from_reader f b m x (primary d)) as [o y]. intros e E. cbn in E. injection E as <-. exact Q.
Qed.
Lemma each_good P read ss : (forall c r, good P r -> good P (snd (read c r))) -> forall r, good P r -> good P (snd (each read ss r)).
Proof.
  intros H. induction ss as [|s ss IH]; intros r G; cbn [each]; [exact G|]. destruct (opened s) as [c|]; [|exact G].
  specialize (H c r G). destruct (read c r) as [[] r1]; [apply IH; exact H|exact H..].
Qed.
Lemma load_good P q r : closed P -> good P r -> good P (snd (load_data q r)).
Proof.
  intros C G. unfold load_data. destruct (match in_base q with Some b => _ | None => _ end) as [b|]; [|exact G].
  destruct (sources q) as [ss|], (at_endpoint q) as [e|]; try exact G.
  - assert (A : forall f m mg, good P (snd (load_rdf ss f b m mg (extra q) r))).
    { intros f m mg. unfold load_rdf. pose proof (each_good P (read_rdf f b m mg) ss (fun c r => read_good P f b m mg c r C) r G) as H.
      destruct (each _ ss r) as [[] r1]; [|exact H..]. cbn [snd] in H. destruct (extra q) as [ps|]; [|exact H]. destruct (all_prefixes ps []) as [p|]; [|exact H].
      destruct (held r1) as [[d|g]|] eqn:E; [|exact H..]. intros d' E'. cbn in E'. injection E' as <-. apply C. exact (H d E). }
    destruct (or Turtle (in_format q)); try apply A. apply each_good; [|exact G]. intros c r1 _. unfold read_pg.
    destruct (utf8 c); [destruct (parse_pg c)|]; intros d' E'; discriminate.
  - unfold load_endpoint. destruct (init_rdf r) as [d|] eqn:I; [|exact G]. destruct (init_empty _ _ I) as (N & _).
    destruct (endpoint_named e d); intros d' E'; cbn in E'; injection E' as <-; cbn; rewrite N; apply C.
Qed.
Lemma run_app os os' : forall r, run (os ++ os') r = match run os r with Some r => run os' r | None => None end.
Proof. induction os as [|o os IH]; intros r; cbn; [reflexivity|]. destruct (step o r); [apply IH|reflexivity]. Qed.
Lemma step_good P o r r' : closed P -> (forall q, o = Ask q -> forall x, P x -> P (ensure_store x)) -> good P r -> step o r = Some r' -> good P r'.
Proof.
  intros C A G E. destruct o as [q|q|]; cbn in E.
  - pose proof (load_good P q r C G) as H. destruct (load_data q r) as [[] r1]; [injection E as <-; exact H..|discriminate].
  - injection E as <-. unfold run_query. destruct (held r) as [[d|g]|] eqn:Hd; [|exact G..]. intros d' E'. cbn in E'. injection E' as <-. apply (A q eq_refl). exact (G d Hd).
  - injection E as <-. intros d E. discriminate.
Qed.
Lemma run_good P os : closed P -> (forall q, In (Ask q) os -> forall x, P x -> P (ensure_store x)) -> forall r r', good P r -> run os r = Some r' -> good P r'.
Proof.
  intros C. induction os as [|o os IH]; intros A r r' G E; cbn in E; [injection E as <-; exact G|].
  destruct (step o r) as [r1|] eqn:S; [|discriminate]. eapply IH; [|eapply step_good; [exact C| |exact G|exact S]|exact E].
  - intros q I. apply (A q). now right.
  - intros q ->. apply (A q). now left.
Qed.
(* when all loads come before the queries, a query is answered over all data *)
Theorem C101_query_partial ls qs r r' q : held r = None -> (forall x, ~ In (Ask x) ls) -> (forall o, In o qs -> exists x, o = Ask x) ->
  run (ls ++ qs) r = Some r' -> is_rdf r' -> fst (run_query q r') = right_answer q r'.
Proof.
  intros N A B E (d & D). rewrite run_app in E. destruct (run ls r) as [r1|] eqn:E1; [|discriminate].
  assert (G1 : good (fun x => store x = None) r1).
  { apply (run_good (fun x => store x = None) ls) with (r := r); [|intros x I; destruct (A x I)|intros y Y; congruence|exact E1].
    split; [reflexivity|]. split; [intros b x H; exact H|]. split; [intros p x H; exact H|intros m es x H; exact H]. }
  set (P := fun x : memory => store x = None \/ store x = Some (graph x)).
  assert (G : forall os, (forall o, In o os -> exists x, o = Ask x) -> forall s s', good P s -> run os s = Some s' -> good P s').
  { induction os as [|o os IH]; intros H s s' G X; cbn in X; [injection X as <-; exact G|]. destruct (H o (or_introl eq_refl)) as (x & ->). cbn in X.
    eapply IH; [intros o I; apply H; now right| |exact X]. unfold run_query. destruct (held s) as [[e|g]|] eqn:Hs; [|exact G..].
    intros e' E'. cbn in E'. injection E' as <-. cbn. unfold ensure_store. destruct (G e Hs) as [Z|Z]; rewrite Z; [right; reflexivity|right; exact Z]. }
  assert (Gr : good P r'). { apply (G qs B r1 r'); [|exact E]. intros x Hx. left. exact (G1 x Hx). }
  unfold run_query, right_answer, graph_of, used_of. rewrite D. cbn [fst with_primary primary used]. unfold select, ensure_store. destruct (Gr d D) as [Z|Z]; rewrite Z; cbn; [reflexivity|]. rewrite Z. reflexivity.
Qed.
(* in every session a query is answered over part of the data *)
Theorem C101_answers_partial os r r' q : held r = None -> run os r = Some r' -> is_rdf r' ->
  exists s, incl s (graph_of r') /\ fst (run_query q r') = match select_all q (used_of r') with Some x => Some (solve q s ++ x) | None => None end.
Proof.
  intros N E (d & D). set (P := fun x : memory => forall s, store x = Some s -> incl s (graph x)).
  assert (G : good P r').
  { apply (run_good P os) with (r := r); [|intros x _ y Y; unfold P, ensure_store in *; destruct (store y) eqn:Z; [intros s Hs; apply Y; congruence|cbn; intros s Hs; injection Hs as <-; apply incl_refl]|intros y Y; congruence|exact E].
    split; [intros s; discriminate|]. split; [intros b x H; exact H|]. split; [intros p x H; exact H|]. intros m es x H s Hs t I. cbn in *. apply feed_grows. exact (H s Hs t I). }
  unfold run_query, graph_of, used_of. rewrite D. cbn [fst with_primary primary used]. unfold select, ensure_store. destruct (store (primary d)) as [s|] eqn:Z; cbn.
  - exists s. rewrite Z. split; [exact (G d D s Z)|reflexivity].
  - exists (graph (primary d)). split; [apply incl_refl|reflexivity].
Qed.
(* a query asks each endpoint that is used, in their order, and fails when one of them does *)
Theorem C101_asked q r : is_rdf r ->
  (Exists (fun e => remote (snd e) q = None) (used_of r) -> fst (run_query q r) = None) /\
  (forall rs, Forall2 (fun e a => remote (snd e) q = Some a) (used_of r) rs -> exists s, fst (run_query q r) = Some (solve q s ++ List.concat rs)).
Proof.
  intros (d & D). unfold run_query, used_of. rewrite D. cbn [fst with_primary primary used]. split.
  - intros E. assert (X : select_all q (used d) = None); [|now rewrite X].
    induction E as [[n e] es H|[n e] es E IH]; cbn in *; [now rewrite H|rewrite IH; now destruct (remote e q)].
  - intros rs F. assert (X : select_all q (used d) = Some (List.concat rs)).
    { induction F as [|[n e] a es rs H F IH]; cbn in *; [reflexivity|]. now rewrite H, IH. }
    rewrite X. unfold select, ensure_store. destruct (store (primary d)) as [s|] eqn:Z; [exists s; now rewrite Z|exists (graph (primary d)); reflexivity].
Qed.
(* endpoints *)
Theorem C101_endpoint_partial q r r' e : sources q = None -> at_endpoint q = Some e -> load_data q r = (Done, r') -> graph_of r' = [] /\
  exists x es, used_of r' = [(e, x)] /\ catalog_of (catalog r) [] = Some es /\
    (get e es = Some x \/ (get e es = None /\ exists n, In (n, x) es /\ (normalize n = normalize e \/ normalize (endpoint_iri x) = normalize e)) \/
     (endpoint_new e = Some x /\ forall n y, In (n, y) es -> normalize n <> normalize e /\ normalize (endpoint_iri y) <> normalize e)).
Proof.
  intros Es Ee E. unfold load_data in E. rewrite Es, Ee in E. destruct (match in_base q with Some b => _ | None => _ end); [|discriminate].
  unfold load_endpoint, init_rdf in E. destruct (catalog_of (catalog r) []) as [es|] eqn:C; [|discriminate].
  destruct (endpoint_named e _) as [x|] eqn:X; [|discriminate]. injection E as <-. split; [reflexivity|]. exists x, es. split; [reflexivity|]. split; [reflexivity|].
  unfold endpoint_named in X. cbn [endpoints] in X. destruct (get e es) as [y|]; [left; congruence|right]. destruct (find (suits e) es) as [[n y]|] eqn:F.
  - left. split; [reflexivity|]. injection X as <-. apply find_some in F. destruct F as (I & S). exists n. split; [exact I|].
    unfold suits in S. cbn in S. apply orb_true_iff in S. rewrite !String.eqb_eq in S. exact S.
  - right. destruct (iri_ok e); [|discriminate]. split; [exact X|]. intros n y I. pose proof (find_none _ _ F _ I) as S. unfold suits in S. cbn in S.
    apply orb_false_iff in S. rewrite !String.eqb_neq in S. exact S.
Qed.

(* property graphs are merged in order; without merging the last one stays *)
Definition pg_of (r : rudof) : option pgraph := match held r with Some (PG g) => Some g | _ => None end.
Theorem C101_pg_partial q r ss cs gs : sources q = Some ss -> at_endpoint q = None -> in_format q = Some Pg -> (forall b, in_base q = Some b -> iri_ok b = true) ->
  Forall2 (fun s c => opened s = Some c) ss cs -> Forall2 (fun c g => utf8 c = true /\ parse_pg c = Some g) cs gs -> gs <> [] ->
  exists r', load_data q r = (Done, r') /\ kept r r' /\
    pg_of r' = Some (if or true (merging q) then fold_left pg_merge gs (or pg_empty (pg_of r)) else pg_merge pg_empty (last gs pg_empty)).
Proof.
  intros Es Ee Ef Eb F P N. unfold load_data. rewrite Es, Ee, Ef.
  replace (match in_base q with Some b => _ | None => _ end) with (Some (or (conf_base r) (in_base q))) by (destruct (in_base q) as [b|]; [rewrite (Eb b eq_refl)|]; reflexivity).
  cbn [or]. clear Es Ee Ef Eb. generalize dependent gs. revert r. generalize (or true (merging q)). intros mg r.
  revert r. induction F as [|s c ss cs O F IH]; intros r gs P N; inversion P as [|? g ? gs' [U Pc] P']; subst; [congruence|].
  cbn [each]. rewrite O. unfold read_pg at 1. rewrite U, Pc.
  destruct gs' as [|g' gs'].
  - inversion P'; subst. inversion F; subst. eexists. split; [reflexivity|]. split; [repeat split|]. cbn.
    unfold pg_of. destruct (held r) as [[d|h]|], mg; reflexivity.
  - edestruct IH as (r' & E & K & G); [exact P'|discriminate|]. rewrite E. exists r'. split; [reflexivity|]. split; [exact K|]. rewrite G.
    destruct mg; [|reflexivity]. cbn. unfold pg_of. destruct (held r) as [[d|h]|]; reflexivity.
Qed.
(* A text with an error is not loaded in strict mode. *)
Lemma feed_fails es : forall g, In None es -> fst (feed Strict es g) = false.
Proof. induction es as [|[t|] es IH]; cbn; intros g H; [destruct H| |reflexivity]. destruct H as [H|H]; [discriminate|]. apply IH, H. Qed.
Theorem C101_malformed q r s c ss f b : sources q = Some (s :: ss) -> at_endpoint q = None -> or Turtle (in_format q) = f -> f <> Pg -> f <> TriG -> f <> N3 ->
  or Strict (in_mode q) = Strict -> base_is q r b -> opened s = Some c -> In None (events f b (given r f c)) -> fst (load_data q r) = Fail.
Proof.
  intros Es Ee Ef N1 N2 N3 Em B O H. unfold load_data. rewrite (base_found _ _ _ B), Es, Ee, Ef, Em.
  replace (match f with Pg => _ | _ => _ end) with (load_rdf (s :: ss) f b Strict (or true (merging q)) (extra q) r) by (destruct f; congruence).
  unfold load_rdf. cbn [each]. rewrite O. unfold read_rdf. destruct (start_rdf _ r) as [d|]; [|reflexivity].
  pose proof (feed_fails _ (graph (primary d)) H) as F.
  destruct f; try congruence; cbn [given] in F; try (destruct (utf8 c); [|reflexivity]); unfold merge_from_reader;
    destruct (feed Strict _ (graph (primary d))) as [ok g]; cbn in F; subst ok; reflexivity.
Qed.
(* The endpoints of the configuration are all there, and each of them must be right. *)
Lemma catalog_spec l : forall acc,
  (catalog_of l acc = None <-> exists n u, In (n, u) l /\ endpoint_new u = None) /\
  forall es, catalog_of l acc = Some es -> forall n, match last_binding n l with
    | Some u => exists e, endpoint_new u = Some e /\ get n es = Some e
    | None => get n es = get n acc
    end.
Proof.
  induction l as [|[n u] l IH]; intros acc; cbn [catalog_of last_binding].
  - split; [split; [discriminate|intros (n & u & [] & _)]|]. intros es [= <-] n. reflexivity.
  - destruct (endpoint_new u) as [e|] eqn:E.
    + destruct (IH (put n e acc)) as (A & B). split.
      * rewrite A. split; [intros (m & v & H & K); exists m, v; split; [now right|exact K]|].
        intros (m & v & [H|H] & K); [congruence|exists m, v; auto].
      * intros es S m. specialize (B es S m). destruct (last_binding m l) as [v|]; [exact B|]. rewrite B, get_put. destruct (String.eqb m n); [eauto|reflexivity].
    + split; [split; [intros _; exists n, u; split; [now left|exact E]|reflexivity]|discriminate].
Qed.
Theorem C101_catalog r :
  (init_rdf r = None <-> exists n u, In (n, u) (catalog r) /\ endpoint_new u = None) /\
  forall d, init_rdf r = Some d -> forall n, match last_binding n (catalog r) with
    | Some u => exists e, endpoint_new u = Some e /\ get n (endpoints d) = Some e
    | None => get n (endpoints d) = None
    end.
Proof.
  destruct (catalog_spec (catalog r) []) as (A & B). unfold init_rdf. rewrite <- A. destruct (catalog_of (catalog r) []) as [es|].
  - split; [split; discriminate|]. intros d [= <-]. exact (B es eq_refl).
  - split; [split; reflexivity|discriminate].
Qed.
(* C102.  The full statement: the prefixes that users give in files, at URLs and as text are those of the data after the load, the last declaration of a prefix counts. *)
Inductive prefix_source : spec -> prefixes -> Prop :=
| PS_text l k i : utf8 l = true -> prefix_line l k i -> prefix_source (Text l) [(k, i)]
| PS_file p ls ps : file p = Some (joined ls) -> utf8 (joined ls) = true -> ls <> [] -> (forall l, In l ls -> one_line l) -> prefix_lines ls ps -> prefix_source (Path p) ps
| PS_url u ls ps : fetch u = Some (joined ls) -> utf8 (joined ls) = true -> ls <> [] -> (forall l, In l ls -> one_line l) -> prefix_lines ls ps -> prefix_source (Url u) ps.
Lemma put_NoDup {A} k (v : A) l : NoDup (List.map fst l) -> NoDup (List.map fst (put k v l)) /\ forall j, In j (List.map fst (put k v l)) -> j = k \/ In j (List.map fst l).
Proof.
  induction l as [|[k' v'] l IH]; cbn; intros N.
  - split; [constructor; [intros []|constructor]|]. intros j [<-|[]]. auto.
  - inversion N as [|? ? A1 B1]; subst. destruct (String.eqb k k') eqn:E; cbn.
    + apply String.eqb_eq in E. subst k'. split; [now constructor|]. intros j [<-|H]; auto.
    + destruct (IH B1) as (C & D). split.
      * constructor; [|exact C]. intros H. destruct (D _ H) as [->|H']; [rewrite String.eqb_refl in E; discriminate|contradiction].
      * intros j [<-|H]; [auto|]. destruct (D _ H); auto.
Qed.
Lemma merge_NoDup b : forall a, NoDup (List.map fst a) -> NoDup (List.map fst (merge_prefixes a b)).
Proof. induction b as [|[k v] b IH]; intros a N; cbn; [exact N|]. apply IH, put_NoDup, N. Qed.
Lemma get_none k (l : prefixes) : ~ In k (List.map fst l) -> get k l = None.
Proof. induction l as [|[k' v] l IH]; cbn; intros H; [reflexivity|]. destruct (String.eqb k k') eqn:E; [apply String.eqb_eq in E; subst; tauto|]. apply IH. tauto. Qed.
Lemma last_get k (l : prefixes) : NoDup (List.map fst l) -> last_binding k l = get k l.
Proof.
  induction l as [|[k' v] l IH]; cbn; intros N; [reflexivity|]. inversion N as [|? ? A B]; subst. rewrite (IH B). destruct (String.eqb k k') eqn:E.
  - apply String.eqb_eq in E. subst. rewrite (get_none _ _ A). reflexivity.
  - destruct (get k l); reflexivity.
Qed.
Lemma source_right s ps : prefix_source s ps -> (forall k i, In (k, i) ps -> iri_ok i = true) -> user_prefixes s = Some (merge_prefixes [] ps).
Proof.
  intros [l k i U P|p ls qs O U N One P|u ls qs O U N One P] I; cbn [user_prefixes opened].
  - rewrite U. destruct (add_prefix_line l k i [] P) as (E & _). rewrite E, (I k i (or_introl eq_refl)). reflexivity.
  - rewrite O, U, (lines_joined _ N One). apply add_lines_right; assumption.
  - rewrite O, U, (lines_joined _ N One). apply add_lines_right; assumption.
Qed.
Lemma all_right es pss : Forall2 prefix_source es pss -> (forall ps k i, In ps pss -> In (k, i) ps -> iri_ok i = true) -> forall m, NoDup (List.map fst m) ->
  exists p, all_prefixes es m = Some p /\ NoDup (List.map fst p) /\ forall k, get k p = match last_binding k (List.concat pss) with Some v => Some v | None => get k m end.
Proof.
  induction 1 as [|s ps es pss P F IH]; intros I m N; cbn [all_prefixes List.concat].
  - exists m. auto.
  - rewrite (source_right _ _ P); [|intros k i J; exact (I ps k i (or_introl eq_refl) J)].
    destruct (IH (fun qs k i A B => I qs k i (or_intror A) B) (merge_prefixes m (merge_prefixes [] ps))) as (p & E & Np & G); [apply merge_NoDup, N|].
    exists p. split; [exact E|]. split; [exact Np|]. intros k. rewrite G, get_merge, last_binding_app. destruct (last_binding k (List.concat pss)); [reflexivity|].
    rewrite (last_get k (merge_prefixes [] ps)); [|apply merge_NoDup; constructor]. rewrite get_merge. destruct (last_binding k ps); reflexivity.
Qed.
Theorem C102_prefixes_partial q r ss cs f m b es pss :
  sources q = Some ss -> at_endpoint q = None -> extra q = Some es -> or true (merging q) = true -> or Turtle (in_format q) = f -> f <> Pg -> or Strict (in_mode q) = m ->
  base_is q r b -> init_rdf r <> None -> Forall2 (fun s c => opened s = Some c) ss cs -> (forall c, In c cs -> readable r f b m c) -> (ss <> [] \/ is_rdf r) ->
  Forall2 prefix_source es pss -> (forall ps k i, In ps pss -> In (k, i) ps -> iri_ok i = true) ->
  exists r', load_data q r = (Done, r') /\ (forall t, In t (graph_of r') <-> In t (graph_of r) \/ exists c, In c cs /\ says r f b c t) /\
    forall k, get k (prefixes_of r') =
      match last_binding k (flat_map (declares r f b) cs ++ List.concat pss) with Some v => Some v | None => get k (prefixes_of r) end.
Proof.
  intros Es Ee Ex Em Ef Np Eo B I F R Y S O. unfold load_data. rewrite (base_found _ _ _ B), Es, Ee, Ex, Em, Ef, Eo.
  destruct (each_right f b m ss cs F r I R) as (r1 & E & K & Y1 & U & G & P).
  replace (match f with Pg => _ | _ => _ end) with (load_rdf ss f b m true (Some es) r) by (destruct f; congruence).
  unfold load_rdf. rewrite E. destruct (all_right es pss S O [] (NoDup_nil _)) as (p & Ep & Nd & Gp). rewrite Ep.
  assert (is_rdf r1) as (d & D). { destruct Y as [Y|Y]; [exact (Y1 Y)|]. destruct ss; [cbn in E; injection E as <-; exact Y|apply Y1; discriminate]. }
  rewrite D. eexists. split; [reflexivity|]. unfold graph_of, prefixes_of in *. rewrite D in G, P. cbn [hold held with_primary primary set_pm graph pm]. split; [exact G|].
  intros k. rewrite get_merge, (last_get k p Nd), Gp, P, last_binding_app. destruct (last_binding k (List.concat pss)); reflexivity.
Qed.
End lib.
Print Assumptions C101_malformed.
Print Assumptions C101_catalog.
Print Assumptions C101_merge_partial.
Print Assumptions C101_replace_partial.
Print Assumptions C101_failed_partial.
Print Assumptions C101_panics_partial.
Print Assumptions C101_query_partial.
Print Assumptions C101_answers_partial.
Print Assumptions C101_asked.
Print Assumptions C101_endpoint_partial.
Print Assumptions C101_pg_partial.
Print Assumptions C102_prefixes_partial.

(* A library where a text says its characters, an exclamation mark is an error, and a query asks for all triples *)
Open Scope string_scope.
Fixpoint chars (s : string) : list (option string) :=
  match s with "" => [] | String "!" s => None :: chars s | String c s => Some (String c "") :: chars s end.
#[local] Instance simple : lib := {
  triple := string; tdec := string_dec; events _ _ c := chars c; declared _ _ := Some [("d", "http://d/")]; with_header _ c := c; utf8 _ := true;
  iri_ok i := match i with String "h" _ => true | _ => false end;
  pgraph := list string; pg_empty := []; pg_merge a b := (a ++ b)%list; parse_pg c := Some [c];
  endpoint := string; endpoint_new u := Some u; endpoint_iri e := e; stdin := "s";
  file p := if String.eqb p "f" then Some "ab" else if String.eqb p "p" then Some (joined ["ex : <http://e/> "; ""; ":<http://x/>"]) else None; fetch _ := None;
  query := unit; solution := string; solve _ g := g; remote _ _ := Some [] }.
Definition none : rudof := {| held := None; defaults := []; conf_base := "http://b/"; catalog := [] |}.
Definition load (ss : list spec) (m : option bool) : request :=
  {| sources := Some ss; in_format := None; in_base := None; at_endpoint := None; in_mode := None; merging := m; extra := None |}.
Definition state (p : res * rudof) : rudof := snd p.
Example C101_met : Forall2 (fun s c => opened s = Some c) [Path "f"; Text "c"] ["ab"; "c"] /\ (forall c, In c ["ab"; "c"] -> readable none Turtle "http://b/" Strict c) /\
  init_rdf none <> None /\ base_is (load [] None) none "http://b/" /\
  fst (load_data (load [Path "f"; Text "c"] None) none) = Done /\ graph_of (state (load_data (load [Path "f"; Text "c"] None) none)) = ["a"; "b"; "c"] /\
  (exists r', run [Load (load [Path "f"] None); Load (load [Text "c"] None); Ask tt] none = Some r' /\ fst (run_query tt r') = Some ["a"; "b"; "c"] /\ is_rdf r') /\
  (exists r', load_data {| sources := None; in_format := None; in_base := None; at_endpoint := Some "http://X/"; in_mode := None; merging := None; extra := None |}
     {| held := None; defaults := []; conf_base := "http://b/"; catalog := [("x", "http://y/")] |} = (Done, r') /\ used_of r' = [("http://X/", "http://y/")]) /\
  load_data (load [Path "g"] None) none = (Fail, none) /\
  pg_of (state (load_data {| sources := Some [Text "g"; Text "h"]; in_format := Some Pg; in_base := None; at_endpoint := None; in_mode := None; merging := None; extra := None |} none)) = Some ["g"; "h"].
Proof.
  split; [repeat constructor|]. split.
  - intros c [<-|[<-|[]]]; (split; [discriminate|]; split; [discriminate|]; split; [discriminate|]; split; [intros _; split; [reflexivity|discriminate]|]; intros _ H; cbn in H; intuition discriminate).
  - split; [discriminate|]. split; [reflexivity|]. split; [vm_compute; reflexivity|]. split; [vm_compute; reflexivity|]. split; [|split].
    + eexists. split; [vm_compute; reflexivity|]. split; [vm_compute; reflexivity|]. eexists. reflexivity.
    + eexists. split; vm_compute; reflexivity.
    + split; reflexivity.
Qed.
(* Without merging, only the last of several sources stays. *)
Theorem C101_replace_refuted : exists q r r' ss s t c, sources q = Some ss /\ merging q = Some false /\ load_data q r = (Done, r') /\ In s ss /\ opened s = Some c /\
  says r Turtle (conf_base r) c t /\ ~ In t (graph_of r').
Proof.
  exists (load [Text "a"; Text "b"] (Some false)), none. eexists. exists [Text "a"; Text "b"], (Text "a"), "a", "a". split; [reflexivity|]. split; [reflexivity|].
  split; [vm_compute; reflexivity|]. split; [now left|]. split; [reflexivity|]. split; [now left|]. cbn. intros [H|[]]. discriminate.
Qed.
Print Assumptions C101_replace_refuted.
(* Data of the other kind are lost even when merging, *)
Theorem C101_kind_refuted : exists q r r' t, or true (merging q) = true /\ load_data q r = (Done, r') /\ In t (graph_of r) /\ ~ In t (graph_of r').
Proof.
  exists {| sources := Some [Text "g"]; in_format := Some Pg; in_base := None; at_endpoint := None; in_mode := None; merging := None; extra := None |}, (state (load_data (load [Text "a"] None) none)).
  do 2 eexists. split; [reflexivity|]. split; [vm_compute; reflexivity|]. split; [left; reflexivity|intros []].
Qed.
Print Assumptions C101_kind_refuted.
(* A load that fails adds what was read before the error, *)
Theorem C101_failed_adds_refuted : exists q r r' t, load_data q r = (Fail, r') /\ In t (graph_of r') /\ ~ In t (graph_of r).
Proof. exists (load [Text "a!"] None), none. do 2 eexists. split; [vm_compute; reflexivity|]. split; [left; reflexivity|intros []]. Qed.
Print Assumptions C101_failed_adds_refuted.
(* and a load from an endpoint that fails loses the data, as does one without merging. *)
Definition held_a : rudof := state (load_data (load [Text "a"] None) none).
Theorem C101_failed_loses_refuted : exists q r r' t, at_endpoint q <> None /\ load_data q r = (Fail, r') /\ In t (graph_of r) /\ ~ In t (graph_of r').
Proof.
  exists {| sources := None; in_format := None; in_base := None; at_endpoint := Some "wikidata"; in_mode := None; merging := None; extra := None |}, held_a. do 2 eexists.
  split; [discriminate|]. split; [vm_compute; reflexivity|]. split; [left; reflexivity|intros []].
Qed.
Print Assumptions C101_failed_loses_refuted.
Theorem C101_failed_replace_refuted : exists q r r' t, merging q = Some false /\ load_data q r = (Fail, r') /\ In t (graph_of r) /\ ~ In t (graph_of r').
Proof. exists (load [Text "!"] (Some false)), held_a. do 2 eexists. split; [reflexivity|]. split; [vm_compute; reflexivity|]. split; [left; reflexivity|intros []]. Qed.
Print Assumptions C101_failed_replace_refuted.
(* TriG and N3 stop the program, as do prefixes without data. *)
Theorem C101_panics_refuted : (exists q r r', in_format q = Some TriG /\ load_data q r = (Panic, r')) /\ (exists q r r', in_format q = None /\ load_data q r = (Panic, r')).
Proof.
  split.
  - exists {| sources := Some [Text "a"]; in_format := Some TriG; in_base := None; at_endpoint := None; in_mode := None; merging := None; extra := None |}, none. eexists. split; [reflexivity|vm_compute; reflexivity].
  - exists {| sources := Some []; in_format := None; in_base := None; at_endpoint := None; in_mode := None; merging := None; extra := Some [Text "ex: <http://e/>"] |}, none. eexists. split; [reflexivity|vm_compute; reflexivity].
Qed.
Print Assumptions C101_panics_refuted.
(* A query after a load that follows another query does not see what that load added. *)
Theorem C101_query_refuted : exists os r r' q t, held r = None /\ run os r = Some r' /\ In t (graph_of r') /\ right_answer q r' = Some ["a"; "b"] /\ fst (run_query q r') = Some ["a"].
Proof.
  exists [Load (load [Text "a"] None); @Ask simple tt; Load (load [Text "b"] None)], none. eexists. exists (tt : @query simple), ("b" : @triple simple). split; [reflexivity|]. split; [vm_compute; reflexivity|].
  split; [right; left; reflexivity|]. split; vm_compute; reflexivity.
Qed.
Print Assumptions C101_query_refuted.
(* A given IRI is taken for another endpoint that differs in the scheme, in case or in a slash at the end. *)
Theorem C101_endpoint_refuted : exists q r r' e x, at_endpoint q = Some e /\ load_data q r = (Done, r') /\ endpoint_new e = Some e /\ used_of r' = [(e, x)] /\ endpoint_iri x <> e.
Proof.
  exists {| sources := None; in_format := None; in_base := None; at_endpoint := Some "https://x.org/sparql/"; in_mode := None; merging := None; extra := None |},
    {| held := None; defaults := []; conf_base := "http://b/"; catalog := [("x", "http://x.org/SPARQL")] |}.
  eexists. exists "https://x.org/sparql/", "http://x.org/SPARQL". split; [reflexivity|]. split; [vm_compute; reflexivity|]. split; [reflexivity|]. split; [reflexivity|discriminate].
Qed.
Print Assumptions C101_endpoint_refuted.
Definition load_with (es : list spec) : request :=
  {| sources := Some [Text "a"]; in_format := None; in_base := None; at_endpoint := None; in_mode := None; merging := None; extra := Some es |}.
Lemma tight_ends c d s : space c = false -> space d = false -> tight (String c (s ++ String d "")).
Proof.
  intros C D. split; [intros x t E; injection E as <- _; exact C|]. intros x t E. destruct t as [|y t].
  - injection E as _ E. destruct s; discriminate.
  - injection E as _ E. revert t E. induction s as [|z s IH]; intros [|w t] E; cbn in E.
    + injection E as <-. exact D.
    + destruct t; discriminate.
    + injection E as _ E. destruct s; discriminate.
    + injection E as _ E. exact (IH t E).
Qed.
Example C102_met : prefix_source (Path "p") [("ex", "http://e/"); ("", "http://x/")] /\
  fst (load_data (load_with [Path "p"]) none) = Done /\ prefixes_of (state (load_data (load_with [Path "p"]) none)) = [("d", "http://d/"); ("ex", "http://e/"); ("", "http://x/")].
Proof.
  split; [|split; vm_compute; reflexivity].
  apply PS_file with (ls := ["ex : <http://e/> "; ""; ":<http://x/>"]); [reflexivity|reflexivity|discriminate| |].
  - intros l [<-|[<-|[<-|[]]]]; cbn; repeat split; discriminate.
  - apply Lines_prefix.
    + apply (Prefix_line "" "ex" " " " " "" "http://e/" "" " "); try (cbn; repeat split; discriminate); [exact (tight_ends "e" "x" "" eq_refl eq_refl)|exact (tight_ends "h" "/" "ttp://e" eq_refl eq_refl)].
    + apply Lines_blank; [exact Logic.I|]. apply Lines_prefix; [|constructor].
      apply (Prefix_line "" "" "" "" "" "http://x/" "" ""); try (cbn; repeat split; discriminate); [|exact (tight_ends "h" "/" "ttp://x" eq_refl eq_refl)].
      split; [discriminate|]. intros c t E. destruct t; discriminate.
Qed.
(* Tabs are white space too; white space within the brackets is not part of the IRI. *)
Example C102_white : let tab := String (ascii_of_nat 9) "" in
  prefixes_of (state (load_data (load_with [Text (tab ++ "ex: <" ++ tab ++ "http://e/ >" ++ tab)%string]) none)) = [("d", "http://d/"); ("ex", "http://e/")].
Proof. vm_compute. reflexivity. Qed.
Example C101_met_catalog : exists r d, init_rdf r = Some d /\ catalog r = [("x", "http://y/"); ("z", "http://w/")] /\ get "x" (endpoints d) = Some "http://y/" /\ get "z" (endpoints d) = Some "http://w/".
Proof. exists {| held := None; defaults := []; conf_base := "http://b/"; catalog := [("x", "http://y/"); ("z", "http://w/")] |}. eexists. repeat split. Qed.
Example C101_met_asked : exists r, is_rdf r /\ used_of r = [("http://X/", "http://y/")] /\
  Forall2 (fun e a => remote (snd e) tt = Some a) (used_of r) [[]] /\ fst (run_query tt r) = Some [].
Proof.
  exists (state (load_data {| sources := None; in_format := None; in_base := None; at_endpoint := Some "http://X/"; in_mode := None; merging := None; extra := None |}
     {| held := None; defaults := []; conf_base := "http://b/"; catalog := [("x", "http://y/")] |})).
  split; [eexists; reflexivity|]. split; [reflexivity|]. split; [repeat constructor|reflexivity].
Qed.
Example C101_met_malformed : In None (events NTriples "http://b/" (given none NTriples "a!b")) /\ base_is (load [] None) none "http://b/" /\
  fst (load_data {| sources := Some [Text "a!b"]; in_format := Some NTriples; in_base := None; at_endpoint := None; in_mode := None; merging := None; extra := None |} none) = Fail.
Proof. split; [cbn; auto|]. split; reflexivity. Qed.
(* The word PREFIX is taken as part of the name; a declaration of Turtle is refused. *)
Theorem C102_keyword_refuted : exists q r r', extra q = Some [Text "PREFIX ex: <http://e/>"] /\ load_data q r = (Done, r') /\ get "ex" (prefixes_of r') = None /\ get "PREFIX ex" (prefixes_of r') = Some "http://e/".
Proof. exists (load_with [Text "PREFIX ex: <http://e/>"]), none. eexists. split; [reflexivity|]. split; [vm_compute; reflexivity|]. split; reflexivity. Qed.
Print Assumptions C102_keyword_refuted.
Theorem C102_turtle_refuted : exists q r r', extra q = Some [Text "@prefix ex: <http://e/> ."] /\ load_data q r = (Fail, r').
Proof. exists (load_with [Text "@prefix ex: <http://e/> ."]), none. eexists. split; [reflexivity|vm_compute; reflexivity]. Qed.
Print Assumptions C102_turtle_refuted.
