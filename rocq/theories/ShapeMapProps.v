(** Properties C22 and C37: result shape maps, and the validation of a shape map. *)
From Coq Require Import List Arith Bool Permutation.
Import ListNotations.
From Verif Require Import RbeModel RbeSpec TableModel TableSpec TableProps GraphModel GraphSpec ProveModel ProveSpec ProveLemmas ProveTotal
  EngineModel EngineSpec EngineShape EngineLemmas EngineFinal EngineProps ShapeMapModel ShapeMapSpec ShapeMapLemmas.

(** ** C22 *)

(** After any sequence of calls that does not panic, the status of a pair is determined by
    the statuses given for that pair alone, as [recorded] says. *)
Theorem C22_recorded (calls : list (nat * nat * status)) (m : rmap) :
  add_results [] calls = Some m -> forall n l o, get_info m n l = o <-> recorded (given n l calls) o.
Proof. exact (results_recorded calls m). Qed.
Print Assumptions C22_recorded.

(** The sequence panics exactly when some pair is given statuses that cannot be reconciled. *)
Theorem C22_panics (calls : list (nat * nat * status)) :
  add_results [] calls = None <-> exists n l, forall o, ~ recorded (given n l calls) o.
Proof. exact (results_panic calls). Qed.
Print Assumptions C22_panics.

(** In particular contradictory verdicts for a pair, in any order, always panic. *)
Theorem C22_no_silent_contradiction (calls : list (nat * nat * status)) (n l e : nat) (i : conformant_info) :
  In (n, l, Conformant i) calls -> In (n, l, NonConformant e) calls -> add_results [] calls = None.
Proof.
  intros P Q. apply C22_panics. exists n, l. intros o R.
  assert (G : forall st, In (n, l, st) calls -> In st (given n l calls)).
  { intros st I. unfold given. apply in_map_iff. exists (n, l, st). split; [reflexivity|]. apply filter_In. split; [exact I|].
    cbn. rewrite !Nat.eqb_refl. reflexivity. }
  apply G in P. apply G in Q. revert P Q. inversion R as [|ss N F|before e' after F F'|ss i' F E|ss i' js F E J A|]; subst; intros P Q.
  - destruct P.
  - rewrite Forall_forall in F. discriminate (F _ P).
  - apply in_app_iff in P. rewrite Forall_forall in F, F'. destruct P as [P|[P|P]]; [discriminate (F _ P)|discriminate|destruct (F' _ P)].
  - rewrite Forall_forall in F. destruct (F _ Q).
  - rewrite Forall_forall in F. destruct (F _ Q).
  - destruct P as [P|[]]. discriminate.
Qed.
Print Assumptions C22_no_silent_contradiction.

Definition ex_info : conformant_info := mkInfo [1] (JArray [JOther 1]).
Example C22_example :
  exists m, add_results [] [(0, 1, Pending); (0, 2, NonConformant 7); (0, 1, Conformant ex_info); (0, 2, NonConformant 8);
                            (0, 1, Conformant ex_info); (0, 1, Pending)] = Some m /\
    get_info m 0 1 = Some (Conformant (mkInfo [1; newline; 1] (JArray [JOther 1; JOther 1]))) /\
    get_info m 0 2 = Some (NonConformant 7) /\ get_info m 1 1 = None.
Proof. eexists. split; [reflexivity|]. repeat split. Qed.
Example C22_panic_example : add_results [] [(0, 1, Conformant ex_info); (0, 1, NonConformant 3)] = None.
Proof. reflexivity. Qed.

(** ** C37 *)
Section Map.
  Variable eval : nat -> nat -> bool.
  Variable external : nat -> nat -> bool.
  Variable default_pred : nat.
  Variable check_extends : nat -> nat -> shape -> (nat -> bool) -> bool.
  Variable reasons : nat -> conformant_info.
  Variable errors : nat -> nat.
  Variable not_found : nat -> nat -> nat.

  Definition run_engine (sch : schema) (g : rdf) (ord : nat -> list nat -> list nat) (fuel : nat) (ks : list nat) :=
    fst (engine_run eval external default_pred check_extends sch g ord fuel ks fresh).

  Lemma run_keys sch g ord fuel ks checked : run_engine sch g ord fuel ks = Some checked -> map fst checked = ks.
  Proof.
    unfold run_engine, engine_run. generalize fresh. revert checked. induction ks as [|k ks IH]; intros checked s; cbn [validate_pending].
    - intro H. injection H as <-. reflexivity.
    - destruct (prove _ _ _ _ _ _ fuel k [] s) as [[| |b] s']; try discriminate.
      specialize (IH (match fst (validate_pending (engine_dep default_pred sch g) (engine_missing sch) (engine_abstract sch) (engine_desc sch)
        (engine_check eval external check_extends sch g) ord fuel ks s') with Some l => l | None => [] end) s').
      destruct (validate_pending _ _ _ _ _ _ fuel ks s') as [[l|] s'']; cbn [fst] in *; [|discriminate].
      intro H. injection H as <-. cbn [map fst]. rewrite IH; reflexivity.
  Qed.

  (** Validation of a shape map never panics, and reports an error only if [prove] does. *)
  Theorem C37_no_panic (r : labels) (sch : schema) (g : rdf) (ord : nat -> list nat -> list nat) (fuel : nat) (pairs : list (nat * nat)) :
    built_labels r -> validate_shapemap r reasons errors not_found (run_engine sch g ord fuel) pairs <> Panic.
  Proof.
    intros B E. pose proof (shapemap_spec r reasons errors not_found (run_engine sch g ord fuel) B (run_keys sch g ord fuel) pairs) as S.
    rewrite E in S. exact S.
  Qed.

  (** With enough steps it answers. *)
  Theorem C37_answers (r : labels) (sch : schema) (g : rdf) (ord : nat -> list nat -> list nat) (pairs : list (nat * nat)) :
    built_labels r -> orders ord -> no_inheritance sch -> defined sch ->
    (forall l i, find_ref r l = Some i -> exists e, find sch i = Some e) ->
    exists fuel m, validate_shapemap r reasons errors not_found (run_engine sch g ord fuel) pairs = Done m.
  Proof.
    intros B O NI DF FR. set (ks := rev (fst (fill_pending r pairs [] []))).
    assert (KS : forall k, In k ks -> exists e, find sch (label_of k) = Some e).
    { intros k K. apply in_rev in K. apply (fill_pending_spec r pairs [] []) in K.
      destruct K as [[]|(n & l & i & _ & F & ->)]. rewrite key_label. exact (FR _ _ F). }
    set (all := EngineLemmas.pairs sch g (map node_of ks) (map label_of ks)).
    assert (A : forall a, ~ on_cycle (edge (inherit sch)) a).
    { intros a (c & (w & E) & _). destruct NI as (_ & I & _). rewrite I in E. destruct E. }
    destruct (pairs_descends sch g (map node_of ks) (map label_of ks) A) as (rank & D).
    destruct (prove_terminates (engine_dep default_pred sch g) (engine_missing sch) (engine_abstract sch) (engine_desc sch)
                (engine_check eval external check_extends sch g) ord rank all O (pairs_closed default_pred sch g _ _) D) as (fuel & F).
    exists fuel.
    assert (R : forall l s, (forall k, In k l -> In k ks) -> exists checked,
      fst (engine_run eval external default_pred check_extends sch g ord fuel l s) = Some checked).
    { induction l as [|k l IH]; intros s I; [exists []; reflexivity|]. unfold engine_run. cbn [validate_pending].
      assert (K : In k ks) by (apply I; left; reflexivity).
      assert (T : fst (prove (engine_dep default_pred sch g) (engine_missing sch) (engine_abstract sch) (engine_desc sch)
                (engine_check eval external check_extends sch g) ord fuel k [] s) <> Fuel).
      { apply F. apply pairs_In. split; apply in_app_iff; left; apply in_map; exact K. }
      assert (T' : fst (prove (engine_dep default_pred sch g) (engine_missing sch) (engine_abstract sch) (engine_desc sch)
                (engine_check eval external check_extends sch g) ord fuel k [] s) <> Err).
      { rewrite <- (key_eta k). apply (C12_no_error eval external default_pred check_extends sch g ord (node_of k) (label_of k) fuel s O NI DF). exact (KS k K). }
      destruct (prove _ _ _ _ _ _ fuel k [] s) as [[| |b] s']; cbn [fst] in *; [congruence|congruence|].
      destruct (IH s') as (c & C); [intros k' K'; apply I; right; exact K'|]. unfold engine_run in C.
      destruct (validate_pending _ _ _ _ _ _ fuel l s') as [[c'|] s'']; [|discriminate]. eexists. reflexivity. }
    destruct (R ks fresh (fun k K => K)) as (checked & C).
    pose proof (shapemap_spec r reasons errors not_found (run_engine sch g ord fuel) B (run_keys sch g ord fuel) pairs) as S.
    destruct (validate_shapemap r reasons errors not_found (run_engine sch g ord fuel) pairs) as [| |m]; [destruct S| |exists m; reflexivity].
    unfold run_engine in S. fold ks in S. congruence.
  Qed.

  (** The result map has the requested pairs and no others; a pair whose label is unknown is
      non conformant; any other is conformant exactly when the node conforms to the shape. *)
  Theorem C37_shapemap_partial (r : labels) (sch : schema) (g : rdf) (ord : nat -> list nat -> list nat) (fuel : nat)
      (pairs : list (nat * nat)) (m : rmap) :
    built_labels r -> orders ord -> NoDup g -> no_inheritance sch -> plain sch -> exact sch -> without_negation sch ->
    validate_shapemap r reasons errors not_found (run_engine sch g ord fuel) pairs = Done m ->
    forall n l,
      (~ In (n, l) pairs -> get_info m n l = None) /\
      (In (n, l) pairs -> find_ref r l = None -> get_info m n l = Some (NonConformant (not_found n l))) /\
      (forall i, In (n, l) pairs -> find_ref r l = Some i ->
         (conforms eval external (shape_holds_variant eval g) sch n i /\ get_info m n l = Some (Conformant (reasons (key n i)))) \/
         (~ conforms eval external (shape_holds_variant eval g) sch n i /\ get_info m n l = Some (NonConformant (errors (key n i))))).
  Proof.
    intros B O NG NI PL EX WN E n l.
    pose proof (shapemap_spec r reasons errors not_found (run_engine sch g ord fuel) B (run_keys sch g ord fuel) pairs) as S.
    rewrite E in S. destruct S as (checked & R & S). destruct (S n l) as (S1 & S2 & S3). split; [exact S1|]. split; [exact S2|].
    intros i I F. destruct (S3 i I F) as (b & Cb & G). unfold run_engine in R.
    destruct (engine_run eval external default_pred check_extends sch g ord fuel (rev (fst (fill_pending r pairs [] []))) fresh) as [o s'] eqn:RE.
    cbn [fst] in R. subst o.
    pose proof (C12_greatest_typing_partial eval external default_pred check_extends sch g ord fuel _ checked s' n i b O NG NI PL EX WN RE Cb) as X.
    destruct b; [left|right]; (split; [|exact G]).
    - apply X. reflexivity.
    - intro C. apply X in C. discriminate.
  Qed.
End Map.
Print Assumptions C37_no_panic.
Print Assumptions C37_answers.
Print Assumptions C37_shapemap_partial.

(** the recursive schema of EngineProps.v, its shape labelled 7 *)
Example C37_hypotheses_met :
  let r := add_shape 7 no_labels in
  built_labels r /\ find_ref r 7 = Some 0 /\
  exists m, validate_shapemap r (fun _ => ex_info) (fun _ => 1) (fun _ _ => 2)
              (run_engine ex_eval no_external 0 no_extends ex_pos ex_graph id_ord 9) [(0, 7); (2, 7); (0, 8); (0, 7)] = Done m /\
    get_info m 0 7 = Some (Conformant ex_info) /\ get_info m 2 7 = Some (NonConformant 1) /\
    get_info m 0 8 = Some (NonConformant 2) /\ get_info m 1 7 = None.
Proof.
  intro r. split; [constructor; constructor|]. split; [reflexivity|]. eexists. split; [vm_compute; reflexivity|]. repeat split.
Qed.
