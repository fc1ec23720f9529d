(* C107: a validation judges what was loaded last, and calls that fail change nothing. *)
From Coq Require Import List String Bool.
From Verif Require Import CsModel CsSpec.
Import ListNotations.

Section Statements.
Context {L : lib}.

Lemma same_but_maps_refl st : same_but_maps st st.
Proof. repeat split. Qed.

(* A schema is loaded just when it is read, compiled, and without negative cycles unless these are
   allowed both by the mode and by the configuration. *)
Theorem C107_load : forall st f src m,
  snd (load_shex st f src m) = Done <->
  exists s i, reads (defaults st) f src s /\ compile (others (cfg st)) s = Some i /\
    (neg i = true -> m = Lax /\ check_neg (cfg st) = false).
Proof.
  intros st f src m.
  assert (G : forall s, snd (compile_shex st s m) = Done <->
    exists i, compile (others (cfg st)) s = Some i /\
      (neg i = true -> m = Lax /\ check_neg (cfg st) = false)).
  { intros s. unfold compile_shex, make_validator.
    destruct (compile (others (cfg st)) s) as [i|] eqn:E.
    - destruct (neg i) eqn:N.
      + destruct m, (check_neg (cfg st)) eqn:C; cbn; (split; [try discriminate | try reflexivity]).
        * intros (j & [= <-] & H). destruct (H N). discriminate.
        * intros (j & [= <-] & H). destruct (H N). discriminate.
        * intros (j & [= <-] & H). destruct (H N). discriminate.
        * intros _. exists i. split; auto.
      + destruct m, (check_neg (cfg st)); cbn; (split; [intros _ | reflexivity]); exists i; split;
          (reflexivity || congruence).
    - cbn. split; [discriminate | intros (i & H & _); discriminate]. }
  unfold load_shex, reads. destruct f.
  - destruct (read_shexc (defaults st) src) as [s|].
    + rewrite G. split; [intros (i & H); exists s, i; intuition |].
      intros (s' & i & [= <-] & H). now exists i.
    + cbn. split; [discriminate | intros (s & i & H & _); discriminate].
  - destruct (read_shexj src) as [s|].
    + rewrite G. split; [intros (i & H); exists s, i; intuition |].
      intros (s' & i & [= <-] & H). now exists i.
    + cbn. split; [discriminate | intros (s & i & H & _); discriminate].
  - cbn. split; [discriminate | intros (s & i & [] & _)].
Qed.

(* The full statement: for every call that is not done, the session is as before.  Proved for all calls
   but the adding of a node, and for validation up to what Map has stored. *)
Theorem C107_kept_partial : forall st o st' e, loading o -> step st o = (st', e) -> e <> Done ->
  same_but_maps st st' /\ (o <> ValidateShex -> st' = st).
Proof.
  intros st o st' e Ho E N.
  assert (R : st' = st -> same_but_maps st st' /\ (o <> ValidateShex -> st' = st))
    by (intros ->; split; [apply same_but_maps_refl | auto]).
  assert (C : forall s m, compile_shex st s m = (st', e) -> st' = st).
  { intros s m. unfold compile_shex.
    destruct (compile _ s) as [i|]; [| now intros [= <- _]].
    destruct (match m with Strict => neg i | Lax => false end); [now intros [= <- _] |].
    destruct (make_validator i (cfg st) true); [intros [= _ <-]; congruence | now intros [= <- _]]. }
  destruct o; cbn [step] in E; try (injection E as _ <-; congruence).
  - apply R. unfold load_shex in E. destruct f; [| | now injection E].
    + destruct (read_shexc (defaults st) src); [eauto | now injection E].
    + destruct (read_shexj src); [eauto | now injection E].
  - apply R. unfold load_compiled in E. destruct (read_compiled m src); [| now injection E].
    destruct (make_validator c (cfg st) false); [injection E as _ <-; congruence | now injection E].
  - apply R. unfold load_map in E. destruct (graph_of st); [| now injection E].
    destruct (validator (shex st)) as [[i c]|]; [| now injection E].
    destruct f; [| now injection E]. destruct (read_map g i src); [injection E as _ <-; congruence | now injection E].
  - destruct Ho.
  - split; [| congruence]. unfold validate_shex in E.
    destruct (graph_of st) as [g|]; [| injection E as <- _; apply same_but_maps_refl].
    destruct (ir (shex st)) as [[i m]|] eqn:Ei; [| injection E as <- _; apply same_but_maps_refl].
    destruct (validator (shex st)) as [[i' c]|] eqn:Ev; [| injection E as <- _; apply same_but_maps_refl].
    destruct (smap (shex st)) as [q|] eqn:Eq; [| injection E as <- _; apply same_but_maps_refl].
    destruct (run_shex (others c) i q g m) as [[r|] m']; [injection E as _ <-; congruence |].
    injection E as <- _. unfold same_but_maps. cbn. now rewrite Ei, Ev, Eq.
  - apply R. unfold load_shacl in E.
    destruct (match src with Some s => read_shacl (defaults st) s | None => _ end);
      [injection E as _ <-; congruence | now injection E].
  - apply R. unfold validate_shacl in E. destruct (graph_of st); [| now injection E].
    destruct (shapes (shac st)) as [s|]; [| now injection E].
    destruct (run_shacl s g); [injection E as _ <-; congruence | now injection E].
  - apply R. unfold load_pgschema in E. destruct (read_pgschema src); [injection E as _ <-; congruence | now injection E].
  - apply R. unfold load_typemap in E. destruct (read_typemap src); [injection E as _ <-; congruence | now injection E].
  - apply R. unfold validate_pg in E. destruct (loaded st) as [[|p]|]; try now injection E.
    destruct (types (pgs st)) as [t|]; [| now injection E]. destruct (tmap (pgs st)) as [m|]; [| now injection E].
    destruct (run_pg m t p); [injection E as _ <-; congruence | now injection E].
Qed.

(* The full statement: for every two sessions with the same configuration, prefixes and data, loading a
   schema and a shape map and validating give the same results.  Proved where the results do not depend
   on what Map has stored. *)
Theorem C107_shex_partial : mapless -> forall st st' f src m q, same_base st st' ->
  let l := [LoadShex f src m; LoadMap Compact q; ValidateShex] in
  snd (perform st l) = snd (perform st' l) /\
  (snd (perform st l) = Done -> judged (shex (fst (perform st l))) = judged (shex (fst (perform st' l)))).
Proof.
  intros M st st' f src m q (C & P & D). cbn [perform step].
  assert (G : forall s,
    let k := fun st => match compile_shex st s m with
                       | (st', Done) => perform st' [LoadMap Compact q; ValidateShex]
                       | (st', e) => (st', e)
                       end in
    snd (k st) = snd (k st') /\ (snd (k st) = Done -> judged (shex (fst (k st))) = judged (shex (fst (k st'))))).
  { intros s. cbn zeta. unfold compile_shex. rewrite C. destruct (compile (others (cfg st')) s) as [i|]; [| easy].
    destruct (match m with Strict => neg i | Lax => false end); [easy |].
    unfold make_validator. destruct (true && check_neg (cfg st') && neg i); [easy |].
    cbn [perform step]. unfold load_map, graph_of. cbn [with_shex loaded shex validator]. rewrite D.
    destruct (loaded st') as [[g|p]|] eqn:Eg; [| easy | easy].
    destruct (read_map g i q) as [as_|]; [| easy].
    unfold validate_shex, graph_of. cbn [with_smap with_shex loaded shex validator ir smap]. rewrite Eg, D.
    cbn [others].
    pose proof (M (others (cfg st')) i as_ g (maps_of st) (maps_of st')) as K.
    destruct (run_shex (others (cfg st')) i as_ g (maps_of st)) as [r1 m1].
    destruct (run_shex (others (cfg st')) i as_ g (maps_of st')) as [r2 m2].
    cbn [fst] in K. subst r2. destruct r1; cbn; easy. }
  cbn zeta in G. unfold load_shex. rewrite P. destruct f; [| | easy].
  - destruct (read_shexc (defaults st') src) as [s|]; [apply (G s) | easy].
  - destruct (read_shexj src) as [s|]; [apply (G s) | easy].
Qed.

(* The full statement: for every session, `shex-validate` with a node judges that node.  Proved where no
   shape map was there before. *)
Theorem C107_node_partial : forall st n s x a g i m c, smap (shex st) = None ->
  loaded st = Some (Rdf g) -> ir (shex st) = Some (i, m) -> validator (shex st) = Some (i, c) ->
  read_selectors n s = Some x -> resolve (Some g) (Some i) x = Some a ->
  forall r m', run_shex (others c) i [a] g m = (Some r, m') ->
  exists st', perform st (shex_command None None None (Some (n, s))) = (st', Done) /\
    judged (shex st') = Some r.
Proof.
  intros st n s x a g i m c Q D I V X A r m' R. cbn [shex_command app perform step].
  unfold add_node, graph_of. rewrite X, D, V, Q. cbn [option_map fst]. rewrite A. cbn [app].
  unfold validate_shex, graph_of. cbn [with_smap with_shex loaded shex ir validator smap]. rewrite D, I, V, R.
  eexists. split; reflexivity.
Qed.

(* Shapes that are given are those validated with, whatever was there before. *)
Theorem C107_shacl : forall st st' d s, same_base st st' ->
  snd (perform st (shacl_command d (Some s))) = snd (perform st' (shacl_command d (Some s))) /\
  (snd (perform st (shacl_command d (Some s))) = Done ->
   found (shac (fst (perform st (shacl_command d (Some s))))) =
   found (shac (fst (perform st' (shacl_command d (Some s)))))).
Proof.
  intros st st' d s (C & P & D).
  assert (G : forall a b, defaults a = defaults b -> loaded a = loaded b ->
    snd (perform a [LoadShacl (Some s); ValidateShacl]) = snd (perform b [LoadShacl (Some s); ValidateShacl]) /\
    (snd (perform a [LoadShacl (Some s); ValidateShacl]) = Done ->
     found (shac (fst (perform a [LoadShacl (Some s); ValidateShacl]))) =
     found (shac (fst (perform b [LoadShacl (Some s); ValidateShacl]))))).
  { intros a b Pab Dab. cbn [perform step]. unfold load_shacl. rewrite Pab.
    destruct (read_shacl (defaults b) s) as [x|]; [| easy].
    unfold validate_shacl, graph_of. cbn [with_shac loaded shac shapes]. rewrite Dab.
    destruct (loaded b) as [[g|p]|]; [| easy | easy]. destruct (run_shacl x g); easy. }
  destruct d as [d|]; cbn [shacl_command app].
  - change (perform st (LoadData d :: [LoadShacl (Some s); ValidateShacl]))
      with (perform (with_data st (Some d)) [LoadShacl (Some s); ValidateShacl]).
    change (perform st' (LoadData d :: [LoadShacl (Some s); ValidateShacl]))
      with (perform (with_data st' (Some d)) [LoadShacl (Some s); ValidateShacl]).
    now apply G.
  - now apply G.
Qed.

(* The full statement: for every data given or not, `shacl-validate` without shapes judges with the shapes
   that are loaded.  Proved where no data are given. *)
Theorem C107_shapes_partial : forall st g s r, loaded st = Some (Rdf g) -> shapes (shac st) = Some s ->
  run_shacl s g = Some r ->
  exists st', perform st (shacl_command None None) = (st', Done) /\ found (shac st') = Some r.
Proof.
  intros st g s r D S R. cbn [shacl_command app perform step]. unfold validate_shacl, graph_of.
  rewrite D, S, R. eexists. split; reflexivity.
Qed.

(* Types and type map that are given are those validated with. *)
Theorem C107_pg : forall st p s t x y r, read_pgschema s = Some x -> read_typemap t = Some y ->
  run_pg y x p = Some r ->
  exists st', perform st (pg_command (Some (Pg p)) (Some s) (Some t)) = (st', Done) /\
    checked (pgs st') = Some r.
Proof.
  intros st p s t x y r X Y R. cbn [pg_command app perform step]. unfold load_pgschema. rewrite X.
  unfold load_typemap. rewrite Y. unfold validate_pg. cbn [with_pgs with_data loaded pgs types tmap]. rewrite R.
  eexists. split; reflexivity.
Qed.

(* The full statement: for every session, a schema is found valid just when it can be loaded in the strict
   mode.  Proved where there are no default prefixes. *)
Theorem C107_check_partial : forall st f src, defaults st = [] ->
  check_shex st f src = true <-> snd (load_shex st f src Strict) = Done.
Proof.
  intros st f src P. rewrite C107_load. rewrite P. unfold check_shex.
  set (fresh := new {| check_neg := false; others := others (cfg st) |}).
  assert (G : forall s, match compile_shex fresh s Lax with
                        | (st', Done) => match ir (shex st') with Some (i, _) => negb (neg i) | None => false end
                        | _ => false
                        end = true <->
              exists i, compile (others (cfg st)) s = Some i /\ neg i = false).
  { intros s. unfold compile_shex, make_validator. cbn [fresh cfg new others check_neg].
    destruct (compile (others (cfg st)) s) as [i|].
    - cbn. rewrite negb_true_iff. split; [intros H; now exists i | now intros (j & [= <-] & H)].
    - split; [discriminate | intros (i & H & _); discriminate]. }
  assert (N : forall i, (neg i = true -> Strict = Lax /\ check_neg (cfg st) = false) <-> neg i = false).
  { intros i. destruct (neg i); split; intros H; try reflexivity; try discriminate; [destruct (H eq_refl); discriminate]. }
  unfold load_shex, reads. destruct f.
  - cbn [fresh new defaults]. destruct (read_shexc [] src) as [s|].
    + rewrite G. split.
      * intros (i & E & K). exists s, i. now rewrite N.
      * intros (s' & i & [= <-] & E & K). exists i. now rewrite N in K.
    + split; [discriminate | intros (s & i & H & _); discriminate].
  - destruct (read_shexj src) as [s|].
    + rewrite G. split.
      * intros (i & E & K). exists s, i. now rewrite N.
      * intros (s' & i & [= <-] & E & K). exists i. now rewrite N in K.
    + split; [discriminate | intros (s & i & H & _); discriminate].
  - split; [discriminate | intros (s & i & [] & _)].
Qed.

(* The full statement: for every configuration, all schemas that compile are loaded in the lax mode.
   Proved where the configuration does not ask for the check of negation. *)
Theorem C107_lax_partial : forall st f src s i, check_neg (cfg st) = false -> reads (defaults st) f src s ->
  compile (others (cfg st)) s = Some i -> snd (load_shex st f src Lax) = Done.
Proof. intros st f src s i C R E. apply C107_load. exists s, i. auto. Qed.

(* Clearing ShEx or SHACL makes their validation an error and leaves the rest. *)
Theorem C107_reset : forall st,
  snd (validate_shex (reset_shex st)) = Error /\ snd (validate_shacl (reset_shacl st)) = Error /\
  source (shex (reset_shex st)) = None /\ ir (shex (reset_shex st)) = None /\
  validator (shex (reset_shex st)) = None /\ smap (shex (reset_shex st)) = None /\
  judged (shex (reset_shex st)) = None /\
  shapes (shac (reset_shacl st)) = None /\ found (shac (reset_shacl st)) = None /\
  shac (reset_shex st) = shac st /\ pgs (reset_shex st) = pgs st /\ same_base st (reset_shex st) /\
  shex (reset_shacl st) = shex st /\ pgs (reset_shacl st) = pgs st /\ same_base st (reset_shacl st).
Proof.
  intros st. unfold validate_shex, validate_shacl, graph_of. cbn.
  destruct (loaded st) as [[g|p]|]; repeat split.
Qed.

(* The full statement: for every session, clearing the validation of property graphs makes it an error and
   leaves the rest.  Proved but for the shape map. *)
Theorem C107_reset_pg_partial : forall st,
  snd (validate_pg (reset_pg st)) = Error /\ shac (reset_pg st) = shac st /\ same_base st (reset_pg st) /\
  types (pgs (reset_pg st)) = None /\ checked (pgs (reset_pg st)) = None /\
  ir (shex (reset_pg st)) = ir (shex st) /\ judged (shex (reset_pg st)) = judged (shex st).
Proof.
  intros st. unfold validate_pg. cbn. destruct (loaded st) as [[g|p]|]; repeat split.
Qed.

(* What is judged is the schema and the shape map just loaded, with the data and the configuration. *)
Theorem C107_judged : forall st f src m q g s i l r x, loaded st = Some (Rdf g) ->
  reads (defaults st) f src s -> compile (others (cfg st)) s = Some i ->
  (neg i = true -> m = Lax /\ check_neg (cfg st) = false) -> read_map g i q = Some l ->
  run_shex (others (cfg st)) i l g match maps (shex st) with Some y => y | None => no_maps end = (Some r, x) ->
  exists st', perform st (shex_command None (Some (f, src, m)) (Some q) None) = (st', Done) /\
    judged (shex st') = Some r /\ maps (shex st') = Some x /\ source (shex st') = Some s /\
    smap (shex st') = Some l.
Proof.
  intros st f src m q g s i l r x D R E N Q X.
  assert (G : exists st', match compile_shex st s m with
                          | (st', Done) => perform st' [LoadMap Compact q; ValidateShex]
                          | (st', e) => (st', e)
                          end = (st', Done) /\ judged (shex st') = Some r /\ maps (shex st') = Some x /\
                          source (shex st') = Some s /\ smap (shex st') = Some l).
  { unfold compile_shex. rewrite E.
    assert (K : match m with Strict => neg i | Lax => false end = false).
    { destruct m; [| reflexivity]. destruct (neg i); [destruct (N eq_refl); discriminate | reflexivity]. }
    rewrite K. unfold make_validator.
    assert (K' : true && check_neg (cfg st) && neg i = false).
    { destruct (neg i); [destruct (N eq_refl) as [_ ->]; reflexivity | now rewrite andb_false_r]. }
    rewrite K'. cbn [perform step]. unfold load_map, graph_of. cbn [with_shex loaded shex validator].
    rewrite D, Q. unfold validate_shex, graph_of. cbn [with_smap with_shex loaded shex validator ir smap].
    rewrite D. fold (maps_of st) in X. rewrite X. eexists. repeat split. }
  cbn [shex_command app perform step]. unfold load_shex. unfold reads in R. destruct f.
  - rewrite R. exact G.
  - rewrite R. exact G.
  - destruct R.
Qed.

(* The same for a schema that was compiled before, whose negative cycles are for the reader to refuse. *)
Theorem C107_compiled : forall st src m q g i l r x, loaded st = Some (Rdf g) ->
  read_compiled m src = Some i -> read_map g i q = Some l ->
  run_shex (others (cfg st)) i l g match maps (shex st) with Some y => y | None => no_maps end = (Some r, x) ->
  exists st', perform st [LoadCompiled src m; LoadMap Compact q; ValidateShex] = (st', Done) /\
    judged (shex st') = Some r /\ maps (shex st') = Some x /\ source (shex st') = None.
Proof.
  intros st src m q g i l r x D R Q X. cbn [perform step]. unfold load_compiled. rewrite R.
  cbn [make_validator andb]. unfold load_map, graph_of. cbn [with_shex loaded shex validator].
  rewrite D, Q. unfold validate_shex, graph_of. cbn [with_smap with_shex loaded shex validator ir smap].
  rewrite D. fold (maps_of st) in X. rewrite X. eexists. repeat split.
Qed.

(* What is judged with shapes that are given, or with those within data that are given. *)
Theorem C107_shacl_judged : forall st g (s : option string) x r,
  match s with Some s => read_shacl (defaults st) s | None => shapes_in g end = Some x ->
  run_shacl x g = Some r ->
  exists st', perform st (shacl_command (Some (Rdf g)) s) = (st', Done) /\
    found (shac st') = Some r /\ shapes (shac st') = Some x.
Proof.
  intros st g s x r E R. cbn [shacl_command app perform step]. unfold load_shacl.
  unfold graph_of. cbn [with_data defaults loaded]. destruct s as [s|]; rewrite E;
  unfold validate_shacl, graph_of; cbn [with_shac with_data loaded shac shapes]; rewrite R; eexists; repeat split.
Qed.

(* Each call leaves the parts that it does not concern, but for the shape map when the validation of
   property graphs is cleared. *)
Theorem C107_frame : forall st o st' e, step st o = (st', e) ->
  defaults st' = defaults st /\
  ((forall d, o <> LoadData d) -> loaded st' = loaded st) /\
  ((forall c, o <> UpdateConfig c) -> cfg st' = cfg st) /\
  (~ of_shex o -> o <> ResetPg -> shex st' = shex st) /\
  (~ of_shacl o -> shac st' = shac st) /\
  (~ of_pg o -> pgs st' = pgs st).
Proof.
  intros st o st' e E.
  assert (S : forall x e', (with_shex st x, e') = (st', e) -> of_shex o \/ o = ResetPg ->
    defaults st' = defaults st /\ ((forall d, o <> LoadData d) -> loaded st' = loaded st) /\
    ((forall c, o <> UpdateConfig c) -> cfg st' = cfg st) /\
    (~ of_shex o -> o <> ResetPg -> shex st' = shex st) /\
    (~ of_shacl o -> shac st' = shac st) /\ (~ of_pg o -> pgs st' = pgs st)).
  { intros x e' [= <- _] K. cbn. intuition. }
  assert (I : forall e', (st, e') = (st', e) ->
    defaults st' = defaults st /\ ((forall d, o <> LoadData d) -> loaded st' = loaded st) /\
    ((forall c, o <> UpdateConfig c) -> cfg st' = cfg st) /\
    (~ of_shex o -> o <> ResetPg -> shex st' = shex st) /\
    (~ of_shacl o -> shac st' = shac st) /\ (~ of_pg o -> pgs st' = pgs st)).
  { intros e' [= <- _]. repeat split. }
  assert (C : forall s m, compile_shex st s m = (st', e) -> of_shex o ->
    defaults st' = defaults st /\ ((forall d, o <> LoadData d) -> loaded st' = loaded st) /\
    ((forall c, o <> UpdateConfig c) -> cfg st' = cfg st) /\
    (~ of_shex o -> o <> ResetPg -> shex st' = shex st) /\
    (~ of_shacl o -> shac st' = shac st) /\ (~ of_pg o -> pgs st' = pgs st)).
  { intros s m K H. unfold compile_shex in K. destruct (compile _ s) as [i|]; [| eauto].
    destruct (match m with Strict => neg i | Lax => false end); [eauto |].
    destruct (make_validator i (cfg st) true); eauto. }
  destruct o; cbn [step] in E.
  - injection E as <- _. cbn. repeat split. intros K. destruct (K d eq_refl).
  - unfold load_shex in E. destruct f; [| | eauto].
    + destruct (read_shexc (defaults st) src); [eapply C; [eassumption | exact Logic.I] | eauto].
    + destruct (read_shexj src); [eapply C; [eassumption | exact Logic.I] | eauto].
  - unfold load_compiled in E. destruct (read_compiled m src); [| eauto].
    destruct (make_validator c (cfg st) false); [| eauto]. eapply S; [eassumption | left; exact Logic.I].
  - unfold load_map in E. destruct (graph_of st); [| eauto].
    destruct (validator (shex st)) as [[i c]|]; [| eauto].
    destruct f; [| eauto]. destruct (read_map g i src); [| eauto]. eapply S; [eassumption | left; exact Logic.I].
  - unfold add_node in E. destruct (read_selectors n s); [| eauto].
    destruct (resolve _ _ _); (eapply S; [eassumption | left; exact Logic.I]).
  - unfold validate_shex in E. destruct (graph_of st) as [g|]; [| eauto].
    destruct (ir (shex st)) as [[i m]|]; [| eauto].
    destruct (validator (shex st)) as [[i' c]|]; [| eauto]. destruct (smap (shex st)) as [q|]; [| eauto].
    destruct (run_shex (others c) i q g m) as [[r|] m']; (eapply S; [eassumption | left; exact Logic.I]).
  - unfold load_shacl in E.
    destruct (match src with Some s => read_shacl (defaults st) s | None => _ end); [| eauto].
    injection E as <- _. cbn. intuition.
  - unfold validate_shacl in E. destruct (graph_of st); [| eauto]. destruct (shapes (shac st)) as [s|]; [| eauto].
    destruct (run_shacl s g); [| eauto]. injection E as <- _. cbn. intuition.
  - unfold load_pgschema in E. destruct (read_pgschema src); [| eauto]. injection E as <- _. cbn. intuition.
  - unfold load_typemap in E. destruct (read_typemap src); [| eauto]. injection E as <- _. cbn. intuition.
  - unfold validate_pg in E. destruct (loaded st) as [[|p]|] eqn:D; try solve [eauto].
    destruct (types (pgs st)) as [t|]; [| eauto]. destruct (tmap (pgs st)) as [m|]; [| eauto].
    destruct (run_pg m t p); [| eauto]. injection E as <- _. cbn. intuition.
  - injection E as <- _. cbn. repeat split. intros K. destruct (K c eq_refl).
  - eapply S; [eassumption | left; exact Logic.I].
  - injection E as <- _. cbn. intuition.
  - injection E as <- _. cbn. intuition.
Qed.

(* The full statement: no call panics.  Those that do are of the formats not implemented. *)
Theorem C107_panics_partial : forall st o, snd (step st o) = Panic <->
  (exists src m, o = LoadShex OtherSyntax src m) \/
  (exists src g v, o = LoadMap OtherLayout src /\ loaded st = Some (Rdf g) /\ validator (shex st) = Some v).
Proof.
  intros st o. split.
  - destruct o; cbn [step snd]; try discriminate.
    + assert (C : forall s, snd (compile_shex st s m) <> Panic).
      { intros s. unfold compile_shex. destruct (compile _ s) as [i|]; [| discriminate].
        destruct (match m with Strict => neg i | Lax => false end); [discriminate |].
        destruct (make_validator i (cfg st) true); discriminate. }
      unfold load_shex. destruct f.
      * destruct (read_shexc (defaults st) src); [intros K; destruct (C _ K) | discriminate].
      * destruct (read_shexj src); [intros K; destruct (C _ K) | discriminate].
      * intros _. left. eauto.
    + unfold load_compiled. destruct (read_compiled m src); [| discriminate].
      destruct (make_validator c (cfg st) false); discriminate.
    + unfold load_map, graph_of. destruct (loaded st) as [[g|p]|]; try discriminate.
      destruct (validator (shex st)) as [[i c]|]; [| discriminate].
      destruct f; [destruct (read_map g i src); discriminate |]. intros _. right. eauto 6.
    + unfold add_node. destruct (read_selectors n s); [| discriminate]. destruct (resolve _ _ _); discriminate.
    + unfold validate_shex. destruct (graph_of st) as [g|]; [| discriminate].
      destruct (ir (shex st)) as [[i m]|]; [| discriminate].
      destruct (validator (shex st)) as [[i' c]|]; [| discriminate].
      destruct (smap (shex st)) as [q|]; [| discriminate].
      destruct (run_shex (others c) i q g m) as [[r|] m']; discriminate.
    + unfold load_shacl.
      destruct (match src with Some s => read_shacl (defaults st) s | None => _ end); discriminate.
    + unfold validate_shacl. destruct (graph_of st); [| discriminate].
      destruct (shapes (shac st)) as [s|]; [| discriminate]. destruct (run_shacl s g); discriminate.
    + unfold load_pgschema. destruct (read_pgschema src); discriminate.
    + unfold load_typemap. destruct (read_typemap src); discriminate.
    + unfold validate_pg. destruct (loaded st) as [[|p]|]; try discriminate.
      destruct (types (pgs st)) as [t|]; [| discriminate]. destruct (tmap (pgs st)) as [m|]; [| discriminate].
      destruct (run_pg m t p); discriminate.
  - intros [(src & m & ->) | (src & g & [i c] & -> & D & V)]; [reflexivity |].
    cbn [step]. unfold load_map, graph_of. now rewrite D, V.
Qed.

(* Results change only with a validation of their kind that is done, and with a reset. *)
Theorem C107_results : forall st o,
  (o <> ValidateShex -> o <> ResetShex -> judged (shex (fst (step st o))) = judged (shex st)) /\
  (o <> ValidateShacl -> o <> ResetShacl -> found (shac (fst (step st o))) = found (shac st)) /\
  (o <> ValidatePg -> o <> ResetPg -> checked (pgs (fst (step st o))) = checked (pgs st)) /\
  (o = ValidateShex \/ o = ValidateShacl \/ o = ValidatePg -> snd (step st o) <> Done ->
   judged (shex (fst (step st o))) = judged (shex st) /\ found (shac (fst (step st o))) = found (shac st) /\
   checked (pgs (fst (step st o))) = checked (pgs st)).
Proof.
  intros st o. split; [|split; [|split]]; intros H K; destruct o; try congruence;
    try (destruct H as [H|[H|H]]; discriminate H); revert K; clear H; cbn;
    unfold load_shex, compile_shex, load_compiled, make_validator, load_map, add_node, validate_shex,
      load_shacl, validate_shacl, load_pgschema, load_typemap, validate_pg;
    repeat (match goal with |- context [match ?x with _ => _ end] => destruct x; cbn end);
    intros K; try reflexivity; try congruence; repeat split.
Qed.

(* A property graph is checked against what is loaded when the command gives no schema or no type map. *)
Theorem C107_pg_loaded : forall st p s t c m,
  (read_pgschema s = Some c -> tmap (pgs st) = Some m -> run_pg m c p <> None ->
   let '(st', e) := perform st (pg_command (Some (Pg p)) (Some s) None) in
   e = Done /\ checked (pgs st') = run_pg m c p) /\
  (types (pgs st) = Some c -> read_typemap t = Some m -> run_pg m c p <> None ->
   let '(st', e) := perform st (pg_command (Some (Pg p)) None (Some t)) in
   e = Done /\ checked (pgs st') = run_pg m c p).
Proof.
  intros st p s t c m. split; intros A B R; cbn.
  - unfold load_pgschema. rewrite A. cbn. unfold validate_pg. cbn. rewrite B.
    destruct (run_pg m c p); [split; reflexivity | congruence].
  - unfold load_typemap. rewrite B. cbn. unfold validate_pg. cbn. rewrite A.
    destruct (run_pg m c p); [split; reflexivity | congruence].
Qed.

End Statements.
Print Assumptions C107_results.
Print Assumptions C107_pg_loaded.
Print Assumptions C107_load.
Print Assumptions C107_kept_partial.
Print Assumptions C107_shex_partial.
Print Assumptions C107_node_partial.
Print Assumptions C107_shacl.
Print Assumptions C107_shapes_partial.
Print Assumptions C107_pg.
Print Assumptions C107_check_partial.
Print Assumptions C107_lax_partial.
Print Assumptions C107_reset.
Print Assumptions C107_reset_pg_partial.
Print Assumptions C107_judged.
Print Assumptions C107_compiled.
Print Assumptions C107_shacl_judged.
Print Assumptions C107_frame.
Print Assumptions C107_panics_partial.

Open Scope string_scope.

(* A small library: a schema, a graph, a shape map and shapes are texts or lists of texts; a result lists
   the option, the schema and the associations; Map stores a number. *)
#[local] Instance small : lib := {
  options := nat;
  graph := string;
  pgraph := string;
  schema := string;
  compiled := string;
  mapstate := nat;
  no_maps := 0;
  selector := string;
  assoc := string;
  results := nat * string * list string * string * nat;
  shacl := string;
  report := string * string;
  pgschema := string;
  typemap := string;
  pgresults := string;
  read_shexc ps s := match ps with
                     | [] => if String.eqb s "prefixed" then None else Some s
                     | _ => Some s
                     end;
  read_shexj s := Some s;
  compile _ s := Some s;
  neg s := String.eqb s "negative";
  read_compiled m s := match m with
                       | Strict => if String.eqb s "negative" then None else Some s
                       | Lax => Some s
                       end;
  read_map _ _ s := Some [s];
  read_selectors n s := Some n;
  resolve _ _ n := if String.eqb n "unknown:n" then None else Some n;
  run_shex c s q g m := (Some (c, s, q, g, if String.eqb s "maps" then m else 0),
                         if String.eqb s "maps" then S m else m);
  read_shacl _ s := Some s;
  shapes_in g := Some "";
  run_shacl s g := Some (s, g);
  read_pgschema s := Some s;
  read_typemap s := Some s;
  run_pg m t p := Some p;
}.

Definition strict_config : @config small := {| check_neg := true; others := 1 |}.
Definition lax_config : @config small := {| check_neg := false; others := 1 |}.
Definition other_config : @config small := {| check_neg := true; others := 2 |}.

Definition ready (s : string) (q : option (list string)) : @state small :=
  {| cfg := strict_config; defaults := []; loaded := Some (Rdf (L := small) "g");
     shex := {| source := Some s; ir := Some (s, 0); validator := Some (s, strict_config); smap := q;
                judged := None; maps := None |};
     shac := {| shapes := Some "mine"; found := None |};
     pgs := {| types := None; tmap := None; checked := None |} |}.

Example C107_met :
  same_base (ready "s" None) (ready "t" (Some ["n"])) /\
  loading (ValidateShex (L := small)) /\
  snd (step (ready "s" None) (ValidateShex (L := small))) = Error /\
  snd (perform (ready "s" None) [LoadShex ShExC "t" Strict; LoadMap Compact "n"; ValidateShex]) = Done /\
  snd (perform (ready "s" None) (shex_command None None None (Some ("n", "s")))) = Done /\
  snd (perform (ready "s" None) (shacl_command None None)) = Done /\
  snd (load_shex (new lax_config) ShExC "negative" Lax) = Done /\
  check_shex (new strict_config) ShExC "s" = true /\
  check_shex (new strict_config) ShExC "negative" = false /\
  snd (perform (ready "s" None) [LoadCompiled "negative" Lax; LoadMap Compact "n"; ValidateShex]) = Done /\
  snd (step (ready "s" None) (LoadMap (L := small) OtherLayout "n")) = Panic.
Proof. repeat split. Qed.

(* Results of a library without Map: its hypothesis is met. *)
Example C107_met_mapless : exists L : lib, mapless.
Proof.
  exists {| options := unit; graph := unit; pgraph := unit; schema := unit; compiled := unit; mapstate := unit;
     no_maps := tt; selector := unit; assoc := unit; results := unit; shacl := unit; report := unit;
     pgschema := unit; typemap := unit; pgresults := unit;
     read_shexc _ _ := Some tt; read_shexj _ := Some tt; compile _ _ := Some tt; neg _ := false;
     read_compiled _ _ := Some tt; read_map _ _ _ := Some []; read_selectors _ _ := Some tt;
     resolve _ _ _ := Some tt; run_shex _ _ _ _ m := (Some tt, m); read_shacl _ _ := Some tt;
     shapes_in _ := Some tt; run_shacl _ _ := Some tt; read_pgschema _ := Some tt; read_typemap _ := Some tt;
     run_pg _ _ _ := Some tt |}.
  intros c i q g m m'. reflexivity.
Qed.

(* A node that cannot be read leaves an empty shape map, with which the next validation, an error before,
   is done and judges nothing. *)
Theorem C107_kept_refuted : exists (L : lib) (st : state) n s,
  snd (validate_shex st) = Error /\ snd (add_node st n s) = Error /\
  snd (validate_shex (fst (add_node st n s))) = Done.
Proof. exists small, (ready "s" None), "unknown:n", "s". repeat split. Qed.
Print Assumptions C107_kept_refuted.

(* What Map stored in an earlier validation, even with another schema, goes into the next one. *)
Theorem C107_shex_refuted : exists (L : lib) (st st' : state) f src m q, same_base st st' /\
  let l := [LoadShex f src m; LoadMap Compact q; ValidateShex] in
  st' = fst (perform st l) /\ snd (perform st l) = Done /\ snd (perform st' l) = Done /\
  judged (shex (fst (perform st l))) <> judged (shex (fst (perform st' l))).
Proof.
  exists small, (ready "s" None).
  exists (fst (perform (ready "s" None) [LoadShex ShExC "maps" Strict; LoadMap Compact "n"; ValidateShex])).
  exists ShExC, "maps", Strict, "n". split; [repeat split |]. cbn. repeat split. discriminate.
Qed.
Print Assumptions C107_shex_refuted.

(* Nodes of earlier commands are judged again. *)
Theorem C107_node_refuted : exists (L : lib) (st : state) n n' s,
  let c := fun n => shex_command None None None (Some (n, s)) in
  snd (perform st (c n')) = Done /\
  judged (shex (fst (perform (fst (perform st (c n))) (c n')))) <> judged (shex (fst (perform st (c n')))).
Proof. exists small, (ready "s" None), "n1", "n2", "s". split; [reflexivity | discriminate]. Qed.
Print Assumptions C107_node_refuted.

(* With data given and no shapes, shapes that are loaded are replaced by those within the data. *)
Theorem C107_shapes_refuted : exists (L : lib) (st : state) g s, shapes (shac st) = Some s /\
  run_shacl s g <> None /\ snd (perform st (shacl_command (Some (Rdf g)) None)) = Done /\
  found (shac (fst (perform st (shacl_command (Some (Rdf g)) None)))) <> run_shacl s g /\
  shapes (shac (fst (perform st (shacl_command (Some (Rdf g)) None)))) <> Some s.
Proof.
  exists small, (ready "s" None), "g", "mine". repeat split; discriminate.
Qed.
Print Assumptions C107_shapes_refuted.

(* With the configuration as it is by default, the lax mode refuses what the strict mode does, while the
   same schema is loaded when it is compiled. *)
Theorem C107_lax_refuted : exists (L : lib) (st : state) f src s i,
  check_neg (cfg st) = true /\ reads (defaults st) f src s /\ compile (others (cfg st)) s = Some i /\
  snd (load_shex st f src Lax) = Error /\
  read_compiled Lax src = Some i /\ snd (load_compiled st src Lax) = Done.
Proof. exists small, (new strict_config), ShExC, "negative", "negative", "negative". repeat split. Qed.
Print Assumptions C107_lax_refuted.

(* A change of the configuration does not reach a schema that is loaded. *)
Theorem C107_config_refuted : exists (L : lib) (st : state) c f src m,
  snd (perform st [UpdateConfig c; ValidateShex]) = Done /\
  snd (perform st [UpdateConfig c; LoadShex f src m; ValidateShex]) = Done /\
  source (shex st) = source (shex (fst (perform st [UpdateConfig c; LoadShex f src m; ValidateShex]))) /\
  judged (shex (fst (perform st [UpdateConfig c; ValidateShex]))) <>
  judged (shex (fst (perform st [UpdateConfig c; LoadShex f src m; ValidateShex]))).
Proof.
  exists small, (ready "s" (Some ["n"])), other_config, ShExC, "s", Strict.
  repeat split. discriminate.
Qed.
Print Assumptions C107_config_refuted.

(* A schema that needs default prefixes is loaded but found malformed by the check. *)
Theorem C107_check_refuted : exists (L : lib) (st : state) f src,
  snd (load_shex st f src Strict) = Done /\ check_shex st f src = false.
Proof.
  exists small.
  exists {| cfg := strict_config; defaults := [("ex", "http://example.org/")]; loaded := None;
            shex := shex (new strict_config); shac := shac (new strict_config); pgs := pgs (new strict_config) |}.
  exists ShExC, "prefixed". split; reflexivity.
Qed.
Print Assumptions C107_check_refuted.

(* Clearing the validation of property graphs drops the shape map of ShEx and keeps the type map. *)
Theorem C107_reset_pg_refuted : exists (L : lib) (st : state) t,
  snd (validate_shex st) = Done /\ snd (validate_shex (reset_pg st)) = Error /\
  tmap (pgs (fst (perform st [LoadTypemap t; ResetPg]))) <> None.
Proof. exists small, (ready "s" (Some ["n"])), "t". repeat split. discriminate. Qed.
Print Assumptions C107_reset_pg_refuted.

(* Results of an earlier schema are still there when another one is loaded. *)
Theorem C107_stale_refuted : exists (L : lib) (st : state) f src m q r,
  let l := [LoadShex f src m] in
  snd (perform st l) = Done /\ judged (shex (fst (perform st l))) = Some r /\
  judged (shex (fst (perform st (l ++ [LoadMap Compact q; ValidateShex])))) <> Some r.
Proof.
  exists small, (fst (perform (ready "s" (Some ["n"])) [ValidateShex])), ShExC, "t", Strict, "n".
  eexists. cbn. repeat split. discriminate.
Qed.
Print Assumptions C107_stale_refuted.

(* What Map has stored stays when ShEx is reset, and enters the next validation. *)
Theorem C107_reset_maps_refuted : exists (L : lib) (st : state) l,
  loaded st = loaded (reset_shex st) /\ snd (perform (reset_shex st) l) = Done /\
  snd (perform (with_data (new (cfg st)) (loaded st)) l) = Done /\
  judged (shex (fst (perform (reset_shex st) l))) <>
  judged (shex (fst (perform (with_data (new (cfg st)) (loaded st)) l))).
Proof.
  exists small, (fst (perform (ready "maps" (Some ["n"])) [ValidateShex])),
    [LoadShex ShExC "maps" Strict; LoadMap Compact "n"; ValidateShex].
  repeat split. cbn. discriminate.
Qed.
Print Assumptions C107_reset_maps_refuted.

Example C107_met_pg : exists (L : lib) (st : state) s t c m p,
  read_pgschema s = Some c /\ tmap (pgs st) = Some m /\ types (pgs st) = Some c /\ read_typemap t = Some m /\
  run_pg m c p <> None.
Proof.
  exists small, (fst (perform (new strict_config) [LoadPgSchema "s"; LoadTypemap "t"])), "s", "t", "s", "t", "p".
  repeat split. discriminate.
Qed.
