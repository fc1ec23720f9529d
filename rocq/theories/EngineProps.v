(** Properties C12, C13, C14 and C21: recursive validation, its memory, negation, CLOSED and
    EXTRA. [engine_run] validates a list of pairs one after the other on one engine;
    [orders ord] says that hash sets are iterated in any order whatever. *)
From Coq Require Import List Arith Bool Lia Permutation.
Import ListNotations.
From Verif Require Import RbeModel RbeSpec RbeProps PendingModel TableModel TableSpec TableLemmas TableProps
  GraphModel GraphSpec GraphLemmas ProveModel ProveSpec ProveLemmas ProveTotal ProveSem ProveHist
  EngineModel EngineSpec EngineShape EngineLemmas EngineFinal.

Section Props.
  Variable eval : nat -> nat -> bool.
  Variable external : nat -> nat -> bool.
  Variable default_pred : nat.
  Variable check_extends : nat -> nat -> shape -> (nat -> bool) -> bool.

  (** ** C12 *)

  (** Validation terminates on every finite graph and schema whose inheritance is not
      cyclic, whatever is in the cache. *)
  Theorem C12_terminates (sch : schema) (g : rdf) (ord : nat -> list nat -> list nat) (n l : nat) :
    orders ord -> (forall a, ~ on_cycle (edge (inherit sch)) a) ->
    exists fuel, forall s, fst (engine_prove eval external default_pred check_extends sch g ord fuel n l s) <> Fuel.
  Proof.
    intros O A. set (all := pairs sch g [n] [l]). destruct (pairs_descends sch g [n] [l] A) as (rank & D).
    destruct (prove_terminates (engine_dep default_pred sch g) (engine_missing sch) (engine_abstract sch) (engine_desc sch)
                (engine_check eval external check_extends sch g) ord rank all O (pairs_closed default_pred sch g [n] [l]) D) as (fuel & F).
    exists fuel. intro s. apply F. apply pairs_In. rewrite key_node, key_label. split; left; reflexivity.
  Qed.

  (** The only errors are missing shapes and abstract shapes without descendants. *)
  Theorem C12_no_error (sch : schema) (g : rdf) (ord : nat -> list nat -> list nat) (n l fuel : nat) (s : state) :
    orders ord -> no_inheritance sch -> defined sch -> (exists e, find sch l = Some e) ->
    fst (engine_prove eval external default_pred check_extends sch g ord fuel n l s) <> Err.
  Proof.
    intros O NI DF (e & F). unfold engine_prove.
    set (dep := engine_dep default_pred sch g).
    set (all := filter (fun k => negb (engine_missing sch k)) (pairs sch g [n] [l])).
    assert (CL : closed dep (engine_desc sch) all).
    { intros k j K N. apply filter_In in K. destruct K as [K M]. apply filter_In.
      split; [exact (pairs_closed default_pred sch g [n] [l] k j K N)|]. destruct N as [N|N].
      - pose proof (dep_label default_pred sch g k j N) as R. apply negb_true_iff in M. unfold engine_missing in *.
        assert (X : exists e', find sch (label_of j) = Some e').
        { revert M. induction R as [a|a b c U R IH]; intro M; [destruct (find sch a); [eauto|discriminate]|].
          apply IH. destruct (DF a b U) as (e' & E'). rewrite E'. reflexivity. }
        destruct X as (e' & ->). reflexivity.
      - destruct (no_abstract sch NI k) as [_ E]. rewrite E in N. destruct N. }
    apply (prove_no_err dep (engine_missing sch) (engine_abstract sch) (engine_desc sch)
             (engine_check eval external check_extends sch g) ord all O CL).
    - intros k K. apply filter_In in K. destruct K as [_ M]. apply negb_true_iff in M. split; [exact M|].
      intro A. destruct (no_abstract sch NI k) as [E _]. congruence.
    - apply filter_In. split.
      + apply pairs_In. rewrite key_node, key_label. split; left; reflexivity.
      + unfold engine_missing. rewrite key_label, F. reflexivity.
  Qed.

  (** Without negation the verdict is membership in the greatest typing closed under the
      shape definitions. Shapes are read as in [shape_holds_variant]. *)
  Theorem C12_greatest_typing_partial (sch : schema) (g : rdf) (ord : nat -> list nat -> list nat) (fuel : nat)
      (pending : list nat) (r : list (nat * bool)) (s' : state) (n l : nat) (b : bool) :
    orders ord -> NoDup g -> no_inheritance sch -> plain sch -> exact sch -> without_negation sch ->
    engine_run eval external default_pred check_extends sch g ord fuel pending fresh = (Some r, s') -> In (key n l, b) r ->
    (b = true <-> conforms eval external (shape_holds_variant eval g) sch n l).
  Proof.
    intros O NG NI PL EX WN R I. pose proof (exact_built sch EX) as TB.
    set (nodes := map node_of pending ++ graph_nodes g).
    assert (CV : covers nodes g).
    { intros s p o H. split; apply in_app_iff; right; unfold graph_nodes; apply in_flat_map; exists (s, p, o); (split; [exact H|]);
        [left|right; left]; reflexivity. }
    assert (ST : strata sch (fun _ => 0)) by (split; [auto|intros i j N; destruct (WN i j N)]).
    destruct (stratified_exists eval external default_pred check_extends sch g NI PL TB NG EX (fun _ => 0) ST nodes CV) as (V & HV).
    assert (KP : In (key n l) pending).
    { destruct (run_well eval external default_pred check_extends sch g NI PL TB ord fuel pending O fresh r s' (fresh_settled _ _ _ _ _ _) R) as (M & _ & _).
      rewrite <- M. apply in_map_iff. exists (key n l, b). split; [reflexivity|exact I]. }
    rewrite (engine_exact eval external default_pred check_extends sch g NI PL TB NG EX (fun _ => 0) ST nodes CV V ord fuel pending r s' n l b O HV); [| |exact R|exact I].
    2:{ intros k K. apply in_app_iff. left. apply in_map. exact K. }
    assert (Nn : In n nodes) by (apply in_app_iff; left; rewrite <- (key_node n l); apply in_map; exact KP).
    split.
    - intro E. apply (HV n l Nn) in E. destruct E as (T & Tn & _ & J).
      exists (fun m j => T m j && mem m nodes). split; [rewrite Tn; apply mem_In; exact Nn|].
      intros m j Tj. apply andb_true_iff in Tj. destruct Tj as [Tj Nm]. apply mem_In in Nm.
      destruct (J m j Nm eq_refl Tj) as (e & F & H). exists e. split; [exact F|].
      pose proof (check_holds eval external check_extends sch g NI NG EX T (key m j) e) as X.
      pose proof (check_holds eval external check_extends sch g NI NG EX (fun m j => T m j && mem m nodes) (key m j) e) as Y.
      rewrite key_label, key_node in X, Y. apply (Y F). apply (X F) in H. rewrite <- H.
      apply (check_local eval external default_pred check_extends sch g NI PL TB). intros i Hi. unfold flat.
      assert (Ni : In (node_of i) nodes).
      { apply dep_In in Hi. destruct Hi as (e' & _ & [(i' & _ & ->)|(p & v & r' & _ & N & ->)]); rewrite key_node; [rewrite key_node; exact Nm|].
        apply neighs_In in N. destruct N as (_ & q & [[_ N]|[_ N]]); apply CV in N; apply N. }
      rewrite (proj2 (mem_In _ _) Ni). apply andb_true_r.
    - intros (T & Tn & J). apply (HV n l Nn). exists T. split; [exact Tn|]. split; [intros; lia|].
      intros m j _ _ Tj. exact (J m j Tj).
  Qed.

  (** The same with the shapes of the ShEx specification, for shapes on which it does not
      matter (see C21). *)
  Theorem C12_greatest_shex_typing_partial (sch : schema) (g : rdf) (ord : nat -> list nat -> list nat) (fuel : nat)
      (pending : list nat) (r : list (nat * bool)) (s' : state) (n l : nat) (b : bool) :
    orders ord -> NoDup g -> no_inheritance sch -> plain sch -> exact sch -> without_negation sch ->
    (forall i s, find sch i = Some (EShape s) -> same_remainder s) ->
    engine_run eval external default_pred check_extends sch g ord fuel pending fresh = (Some r, s') -> In (key n l, b) r ->
    (b = true <-> conforms eval external (shape_holds eval g) sch n l).
  Proof.
    intros O NG NI PL EX WN SR R I. rewrite (conforms_same eval external g sch n l SR).
    exact (C12_greatest_typing_partial sch g ord fuel pending r s' n l b O NG NI PL EX WN R I).
  Qed.

  (** ** C13 *)

  (** Whatever was asked before, in whatever order, the verdict is that of a fresh engine. *)
  Theorem C13_history_partial (sch : schema) (g : rdf) (ord ord' : nat -> list nat -> list nat) (fuel fuel' : nat)
      (pending : list nat) (r : list (nat * bool)) (s s' : state) (n l : nat) (b b' : bool) :
    orders ord -> orders ord' -> no_inheritance sch -> plain sch -> tables_built sch ->
    engine_run eval external default_pred check_extends sch g ord fuel pending fresh = (Some r, s) -> In (key n l, b) r ->
    engine_prove eval external default_pred check_extends sch g ord' fuel' n l fresh = (Verdict b', s') -> b = b'.
  Proof.
    intros O O' NI PL TB R I P.
    destruct (run_well eval external default_pred check_extends sch g NI PL TB ord fuel pending O fresh r s (fresh_settled _ _ _ _ _ _) R) as (_ & _ & V).
    pose proof (check_local eval external default_pred check_extends sch g NI PL TB) as LC.
    destruct (prove_well _ (engine_missing sch) (engine_abstract sch) (engine_desc sch) _ ord' O' LC (no_abstract sch NI) fuel' (key n l) [] fresh (Verdict b') s')
      as [_ (m & _ & G & _)]; [intros h []|exact (fresh_settled _ _ _ _ _ _)|exact P|].
    exact (given_fun _ _ LC [] (key n l) b (V _ _ I) b' G).
  Qed.

  (** and a fresh engine does answer *)
  Theorem C13_fresh_answers (sch : schema) (g : rdf) (ord : nat -> list nat -> list nat) (n l : nat) :
    orders ord -> no_inheritance sch -> defined sch -> (exists e, find sch l = Some e) ->
    exists fuel b s, engine_prove eval external default_pred check_extends sch g ord fuel n l fresh = (Verdict b, s).
  Proof.
    intros O NI DF F. destruct (C12_terminates sch g ord n l O) as (fuel & T).
    { intros a (c & (w & E) & _). destruct NI as (_ & I & _). rewrite I in E. destruct E. }
    exists fuel. specialize (T fresh). pose proof (C12_no_error sch g ord n l fuel fresh O NI DF F) as E.
    destruct (engine_prove eval external default_pred check_extends sch g ord fuel n l fresh) as [[| |b] s]; cbn [fst] in *; [congruence|congruence|].
    exists b, s. reflexivity.
  Qed.

  (** ** C14 *)

  (** On stratified schemas there is a stratified typing, and it gives the verdicts. *)
  Theorem C14_stratified_partial (sch : schema) (g : rdf) (nodes : list nat) :
    NoDup g -> no_inheritance sch -> plain sch -> exact sch -> stratified_schema sch -> covers nodes g ->
    exists stratum V, strata sch stratum /\ stratified eval external (shape_holds_variant eval g) sch nodes stratum V /\
      forall ord fuel pending r s' n l b, orders ord -> (forall k, In k pending -> In (node_of k) nodes) ->
        engine_run eval external default_pred check_extends sch g ord fuel pending fresh = (Some r, s') ->
        In (key n l, b) r -> b = V n l.
  Proof.
    intros NG NI PL EX SS CV. pose proof (exact_built sch EX) as TB. destruct (stratum_exists sch TB SS) as (str & ST).
    destruct (stratified_exists eval external default_pred check_extends sch g NI PL TB NG EX str ST nodes CV) as (V & HV).
    exists str, V. split; [exact ST|]. split; [exact HV|]. intros ord fuel pending r s' n l b O NP R I.
    exact (engine_exact eval external default_pred check_extends sch g NI PL TB NG EX str ST nodes CV V ord fuel pending r s' n l b O HV NP R I).
  Qed.

  (** A pair is reported conformant to NOT S exactly when it is reported non-conformant
      to S. *)
  Theorem C14_complement_partial (sch : schema) (g : rdf) (ord : nat -> list nat -> list nat) (fuel : nat)
      (pending : list nat) (r : list (nat * bool)) (s' : state) (n l i : nat) (b b' : bool) :
    orders ord -> NoDup g -> no_inheritance sch -> plain sch -> exact sch -> stratified_schema sch ->
    find sch l = Some (ENot i) ->
    engine_run eval external default_pred check_extends sch g ord fuel pending fresh = (Some r, s') ->
    In (key n l, b) r -> In (key n i, b') r -> b = negb b'.
  Proof.
    intros O NG NI PL EX SS F R I I'. pose proof (exact_built sch EX) as TB.
    set (nodes := map node_of pending ++ graph_nodes g).
    assert (CV : covers nodes g).
    { intros s p o H. split; apply in_app_iff; right; unfold graph_nodes; apply in_flat_map; exists (s, p, o); (split; [exact H|]);
        [left|right; left]; reflexivity. }
    assert (NP : forall k, In k pending -> In (node_of k) nodes) by (intros k K; apply in_app_iff; left; apply in_map; exact K).
    destruct (stratum_exists sch TB SS) as (str & ST).
    destruct (stratified_exists eval external default_pred check_extends sch g NI PL TB NG EX str ST nodes CV) as (V & HV).
    assert (KP : In (key n l) pending).
    { destruct (run_well eval external default_pred check_extends sch g NI PL TB ord fuel pending O fresh r s' (fresh_settled _ _ _ _ _ _) R) as (M & _ & _).
      rewrite <- M. apply in_map_iff. exists (key n l, b). split; [reflexivity|exact I]. }
    assert (Nn : In n nodes) by (rewrite <- (key_node n l); exact (NP _ KP)).
    rewrite (engine_exact eval external default_pred check_extends sch g NI PL TB NG EX str ST nodes CV V ord fuel pending r s' n l b O HV NP R I).
    rewrite (engine_exact eval external default_pred check_extends sch g NI PL TB NG EX str ST nodes CV V ord fuel pending r s' n i b' O HV NP R I').
    pose proof (stratified_fixpoint eval external default_pred check_extends sch g NI PL TB NG EX str ST nodes CV V n l HV Nn) as X.
    destruct (V n l) eqn:A, (V n i) eqn:B; try reflexivity; exfalso.
    - destruct (proj1 X eq_refl) as (e & E & H). rewrite F in E. injection E as <-. cbn [holds] in H. congruence.
    - assert (Y : false = true); [|discriminate]. apply X. exists (ENot i). split; [exact F|exact B].
  Qed.

  (** ** C21 *)

  (** What the engine decides about a node and a shape, under any typing of the
      references. *)
  Theorem C21_variant (g : rdf) (T : typing) (n : nat) (s : shape) :
    NoDup g -> exact_shape s ->
    (check_node_shape eval g n s (fun k => T (node_of k) (label_of k)) = true <-> shape_holds_variant eval g T n s).
  Proof. intros NG E. exact (check_node_shape_spec eval T g NG n s E). Qed.

  (** It is the definition of ShEx for shapes without inverse constraints, without
      references on EXTRA predicates, and with EXTRA predicates that are mentioned or an
      open shape. *)
  Theorem C21_shex_partial (g : rdf) (T : typing) (n : nat) (s : shape) :
    NoDup g -> exact_shape s -> same_remainder s ->
    (check_node_shape eval g n s (fun k => T (node_of k) (label_of k)) = true <-> shape_holds eval g T n s).
  Proof. intros NG E S. rewrite (same_remainder_holds eval g T n s S). exact (C21_variant g T n s NG E). Qed.
End Props.
Print Assumptions C12_terminates.
Print Assumptions C12_no_error.
Print Assumptions C12_greatest_typing_partial.
Print Assumptions C12_greatest_shex_typing_partial.
Print Assumptions C13_history_partial.
Print Assumptions C13_fresh_answers.
Print Assumptions C14_stratified_partial.
Print Assumptions C14_complement_partial.
Print Assumptions C21_variant.
Print Assumptions C21_shex_partial.

(** ** Examples: the hypotheses of the theorems can be met *)

Definition id_ord (_ : nat) (l : list nat) : list nat := l.
Lemma id_orders : orders id_ord.
Proof. intros n l. apply Permutation_refl. Qed.

Definition no_external (_ _ : nat) : bool := false.
Definition no_extends (_ _ : nat) (_ : shape) (_ : nat -> bool) : bool := false.

Definition once : card := mkCard 1 (IntMax 1).
(** a shape with one triple constraint *)
Definition one (closed : bool) (extra : list nat) (k : nat) (cd : mcond) (c : card) : shape :=
  mkShape closed extra (with_rbe (rs_from (Symbol 0 c)) (snd (add_component k cd t_new))) [k] [].

Lemma one_component closed extra k cd c c' k' cd' :
  component (s_table (one closed extra k cd c)) c' k' cd' <-> c' = 0 /\ k' = k /\ cd' = cd.
Proof.
  split.
  - intros [A B]. cbn in A, B. destruct c' as [|[|c']]; cbn in A, B; [|discriminate|discriminate]. injection A as <-. injection B as <-. auto.
  - intros (-> & -> & ->). split; reflexivity.
Qed.
Lemma one_exact closed extra k cd c : wf (Symbol 0 c) -> no00 (Symbol 0 c) -> exact_shape (one closed extra k cd c).
Proof.
  intros W N. split.
  - split; [repeat constructor|]. split; [reflexivity|]. split; [reflexivity|]. split; [exact W|]. split; [exact N|].
    split; [concrete|]. intros _. simpl. tauto.
  - split.
    + left. intros c1 c2 k' cd1 cd2 A B. apply one_component in A, B. destruct A as (-> & _). destruct B as (-> & _). reflexivity.
    + intro k'. cbn [s_preds one]. split.
      * intros [<-|[]]. exists 0, cd. apply one_component. auto.
      * intros (c' & cd' & A). apply one_component in A. destruct A as (_ & -> & _). left. reflexivity.
Qed.

(** [S { :p @S }], a recursive schema, on a graph with a cycle and a path that ends *)
Definition ex_pos : schema := mkSchema [(0, EShape (one false [] (direct 1) (CRef 0) once))] [] [].
Definition ex_graph : rdf := [(0, 1, 1); (1, 1, 0); (2, 1, 3)].
(** the same with [N NOT @S] *)
Definition ex_neg : schema := mkSchema [(0, EShape (one false [] (direct 1) (CRef 0) once)); (1, ENot 0)] [] [].

Lemma ex_graph_nodup : NoDup ex_graph.
Proof. repeat constructor; cbn; intuition discriminate. Qed.
Lemma find_pos i e : find ex_pos i = Some e -> i = 0 /\ e = EShape (one false [] (direct 1) (CRef 0) once).
Proof. unfold find. cbn [shapes ex_pos assoc]. destruct (Nat.eqb_spec i 0); [|discriminate]. intro H. injection H as <-. auto. Qed.
Lemma find_neg i e : find ex_neg i = Some e ->
  i = 0 /\ e = EShape (one false [] (direct 1) (CRef 0) once) \/ i = 1 /\ e = ENot 0.
Proof.
  unfold find. cbn [shapes ex_neg assoc]. destruct (Nat.eqb_spec i 0) as [->|]; [|destruct (Nat.eqb_spec i 1) as [->|]; [|discriminate]];
    intro H; injection H as <-; auto.
Qed.
Lemma one_plain closed extra k cd c : match cd with CAnd _ => False | _ => True end -> plain_shape (one closed extra k cd c).
Proof. intros P c' k' cd' A. apply one_component in A. destruct A as (_ & _ & ->). destruct cd; tauto. Qed.

Example C12_hypotheses_met :
  no_inheritance ex_pos /\ plain ex_pos /\ exact ex_pos /\ without_negation ex_pos /\ defined ex_pos /\
  (forall i s, find ex_pos i = Some (EShape s) -> same_remainder s) /\
  (forall a, ~ on_cycle (edge (inherit ex_pos)) a) /\
  fst (engine_run ex_eval no_external 0 no_extends ex_pos ex_graph id_ord 9 [key 0 0; key 2 0; key 1 0] fresh)
    = Some [(key 0 0, true); (key 2 0, false); (key 1 0, true)].
Proof.
  split; [|split; [|split; [|split; [|split; [|split; [|split]]]]]].
  - split; [reflexivity|]. split; [reflexivity|]. intros i s F. apply find_pos in F. destruct F as [_ F]. injection F as ->. reflexivity.
  - intros i s F. apply find_pos in F. destruct F as [_ F]. injection F as ->. apply one_plain. exact I.
  - intros i s F. apply find_pos in F. destruct F as [_ F]. injection F as ->. apply one_exact; concrete.
  - intros i j F. apply find_pos in F. destruct F as [_ F]. discriminate.
  - intros i j (e & F & U). apply find_pos in F. destruct F as [_ ->]. destruct U as [[]|(c & k & cd & v & v' & A & N)].
    apply one_component in A. destruct A as (_ & _ & ->). destruct N as [_ ->]. eexists. reflexivity.
  - intros i s F. apply find_pos in F. destruct F as [_ F]. injection F as ->. split; [|split].
    + intros k (c & cd & A). apply one_component in A. destruct A as (_ & -> & _). reflexivity.
    + intros c k cd v v' r _ [].
    + discriminate.
  - intros a (c & (w & []) & _).
  - vm_compute. reflexivity.
Qed.

Example C13_C14_hypotheses_met :
  no_inheritance ex_neg /\ plain ex_neg /\ exact ex_neg /\ tables_built ex_neg /\ stratified_schema ex_neg /\ defined ex_neg /\
  covers [0; 1; 2; 3] ex_graph /\
  fst (engine_run ex_eval no_external 0 no_extends ex_neg ex_graph id_ord 9 [key 0 0; key 2 0; key 0 1; key 2 1] fresh)
    = Some [(key 0 0, true); (key 2 0, false); (key 0 1, false); (key 2 1, true)] /\
  fst (engine_prove ex_eval no_external 0 no_extends ex_neg ex_graph id_ord 9 2 1 fresh) = Verdict true.
Proof.
  assert (EX : exact ex_neg).
  { intros i s F. apply find_neg in F. destruct F as [[_ F]|[_ F]]; [|discriminate]. injection F as ->. apply one_exact; concrete. }
  assert (U0 : forall i j, label_uses ex_neg i j -> j = 0).
  { intros i j (e & F & U). apply find_neg in F. destruct F as [[_ ->]|[_ ->]]; [|exact U].
    destruct U as [[]|(c & k & cd & v & v' & A & N)]. apply one_component in A. destruct A as (_ & _ & ->). apply N. }
  split; [|split; [|split; [|split; [|split; [|split; [|split; [|split]]]]]]].
  - split; [reflexivity|]. split; [reflexivity|]. intros i s F. apply find_neg in F. destruct F as [[_ F]|[_ F]]; [|discriminate].
    injection F as ->. reflexivity.
  - intros i s F. apply find_neg in F. destruct F as [[_ F]|[_ F]]; [|discriminate]. injection F as ->. apply one_plain. exact I.
  - exact EX.
  - exact (exact_built _ EX).
  - intros (i & j & N & _ & R). unfold label_negates in N. apply find_neg in N. destruct N as [[_ N]|[-> N]]; [discriminate|].
    injection N as ->. assert (X : forall a b, reach (label_uses ex_neg) a b -> a = 0 -> b = 0).
    { intros a b H. induction H as [a|a b c U _ IH]; intro E; [exact E|]. apply IH. exact (U0 _ _ U). }
    discriminate (X _ _ R eq_refl).
  - intros i j U. apply U0 in U. subst j. eexists. reflexivity.
  - intros s p o H. cbn in H. destruct H as [H|[H|[H|[]]]]; injection H as <- <- <-; cbn; tauto.
  - vm_compute. reflexivity.
  - vm_compute. reflexivity.
Qed.

(** ** Where the full statements fail *)

(** Two abstract shapes that extend each other, which nothing rejects: validation does not
    end, in any number of steps. *)
Definition loop_schema : schema :=
  let s := one false [] (direct 1) (CSingle None) once in
  mkSchema [(0, EShape (mkShape false [] (s_table s) (s_preds s) [1])); (1, EShape (mkShape false [] (s_table s) (s_preds s) [0]))]
           [0; 1] [((0, 1), tt); ((1, 0), tt)].
Theorem C12_cyclic_inheritance_refuted : exists (sch : schema) (g : rdf) (n l : nat),
  defined sch /\ without_negation sch /\ (exists e, find sch l = Some e) /\
  forall eval external default_pred check_extends ord fuel, orders ord ->
    fst (engine_prove eval external default_pred check_extends sch g ord fuel n l fresh) = Fuel.
Proof.
  exists loop_schema, [], 0, 0. split; [|split; [|split]].
  - intros i j (e & F & U). unfold find in *. cbn [shapes loop_schema assoc] in *.
    assert (X : forall c k cd v v', component (s_table (one false [] (direct 1) (CSingle None) once)) c k cd -> ~ TableSpec.needs cd v v' j).
    { intros c k cd v v' A. apply one_component in A. destruct A as (_ & _ & ->). exact (fun H => H). }
    destruct (Nat.eqb_spec i 0); [|destruct (Nat.eqb_spec i 1); [|discriminate]]; injection F as <-;
      (destruct U as [[<-|[]]|(c & k & cd & v & v' & A & N)]; [|destruct (X _ _ _ _ _ A N)]); eexists; reflexivity.
  - intros i j. unfold label_negates, find. cbn [shapes loop_schema assoc].
    destruct (Nat.eqb_spec i 0); [discriminate|destruct (Nat.eqb_spec i 1); discriminate].
  - eexists. reflexivity.
  - intros eval external dp ce ord fuel O. unfold engine_prove.
    enough (G : forall hyp s k, (k = key 0 0 \/ k = key 0 1) -> cache s = [] ->
      fst (prove (engine_dep dp loop_schema []) (engine_missing loop_schema) (engine_abstract loop_schema) (engine_desc loop_schema)
             (engine_check eval external ce loop_schema []) ord fuel k hyp s) = Fuel) by (apply G; [left|]; reflexivity).
    induction fuel as [|f IH]; intros hyp s k K C; [reflexivity|].
    assert (D : engine_dep dp loop_schema [] k = []) by (destruct K as [-> | ->]; reflexivity).
    assert (M : engine_missing loop_schema k = false) by (destruct K as [-> | ->]; reflexivity).
    assert (A : engine_abstract loop_schema k = true) by (destruct K as [-> | ->]; reflexivity).
    assert (E : exists k', engine_desc loop_schema k = [k'] /\ (k' = key 0 0 \/ k' = key 0 1))
      by (destruct K as [-> | ->]; eexists; (split; [reflexivity|]); auto).
    destruct E as (k' & E & K'). cbn [prove]. rewrite C. cbn [lookup]. rewrite M, D. cbn [nodup filter existsb].
    assert (P : ord (tick s) [] = []) by (apply Permutation_nil, Permutation_sym, O). rewrite P. cbn [prove_each].
    unfold check_idx. rewrite A, E. cbn [first_proved].
    match goal with |- context [prove _ _ _ _ _ _ f k' (k :: hyp) ?st] =>
      specialize (IH (k :: hyp) st k' K' eq_refl);
      destruct (prove (engine_dep dp loop_schema []) (engine_missing loop_schema) (engine_abstract loop_schema) (engine_desc loop_schema)
                  (engine_check eval external ce loop_schema []) ord f k' (k :: hyp) st) as [o s2] end.
    cbn [fst] in IH. subst o. reflexivity.
Qed.
Print Assumptions C12_cyclic_inheritance_refuted.

(** A triple constraint with a semantic action and a reference, [A { :p @B %act{..%} }],
    [B { :q @A }]: the reference is not a dependency. *)
Definition hidden_schema : schema :=
  mkSchema [(0, EShape (one false [] (direct 1) (CAnd [CSingle None; CRef 1]) once));
            (1, EShape (one false [] (direct 2) (CRef 0) once))] [] [].
Definition hidden_graph : rdf := [(0, 1, 1); (1, 2, 0)].
Lemma find_hidden i e : find hidden_schema i = Some e ->
  i = 0 /\ e = EShape (one false [] (direct 1) (CAnd [CSingle None; CRef 1]) once) \/
  i = 1 /\ e = EShape (one false [] (direct 2) (CRef 0) once).
Proof.
  unfold find. cbn [shapes hidden_schema assoc]. destruct (Nat.eqb_spec i 0) as [->|]; [|destruct (Nat.eqb_spec i 1) as [->|]; [|discriminate]];
    intro H; injection H as <-; auto.
Qed.
Lemma hidden_facts : NoDup hidden_graph /\ no_inheritance hidden_schema /\ exact hidden_schema /\ without_negation hidden_schema /\
  defined hidden_schema.
Proof.
  split; [|split; [|split; [|split]]].
  - repeat constructor; cbn; intuition discriminate.
  - split; [reflexivity|]. split; [reflexivity|]. intros i s F. apply find_hidden in F. destruct F as [[_ F]|[_ F]]; injection F as ->; reflexivity.
  - intros i s F. apply find_hidden in F. destruct F as [[_ F]|[_ F]]; injection F as ->; apply one_exact; concrete.
  - intros i j F. apply find_hidden in F. destruct F as [[_ F]|[_ F]]; discriminate.
  - intros i j (e & F & U). apply find_hidden in F. destruct F as [[_ ->]|[_ ->]]; destruct U as [[]|(c & k & cd & v & v' & A & N)];
      apply one_component in A; destruct A as (_ & _ & ->); cbn in N; [destruct N as [[]|[[_ ->]|[]]]|destruct N as [_ ->]]; eexists; reflexivity.
Qed.

(** Without [plain], C12 fails: the node conforms and is rejected. *)
Theorem C12_hidden_reference_refuted : exists eval external default_pred check_extends (sch : schema) (g : rdf) ord fuel n l s',
  orders ord /\ NoDup g /\ no_inheritance sch /\ exact sch /\ without_negation sch /\ defined sch /\
  engine_prove eval external default_pred check_extends sch g ord fuel n l fresh = (Verdict false, s') /\
  conforms eval external (shape_holds eval g) sch n l.
Proof.
  exists ex_eval, no_external, 0, no_extends, hidden_schema, hidden_graph, id_ord, 9, 0, 0. eexists.
  destruct hidden_facts as (F1 & F2 & F3 & F4 & F5). split; [exact id_orders|]. do 5 (split; [assumption|]).
  split; [vm_compute; reflexivity|]. exists (fun m j => ((m =? 0) && (j =? 0)) || ((m =? 1) && (j =? 1))).
  split; [reflexivity|]. intros m j T. apply orb_true_iff in T. destruct T as [T|T]; apply andb_true_iff in T; destruct T as [M J];
    apply Nat.eqb_eq in M, J; subst m j; (eexists; split; [reflexivity|]); cbn [holds].
  - exists [(direct 1, 1)], [(inverse 2, 1)], [0]. split; [|split; [|split]].
    + split; [repeat constructor; cbn; intuition discriminate|]. intros k v. cbn. split.
      * intros [E|[E|[]]]; injection E as <- <-; [exists 1|exists 2]; cbn; tauto.
      * intros (p & [[-> [E|[E|[]]]]|[-> [E|[E|[]]]]]); injection E; intros; subst; try discriminate; cbn; tauto.
    + repeat constructor. exists (CAnd [CSingle None; CRef 1]). split; [apply one_component; auto|]. split; [cbn; auto|].
      intros v r N. cbn in N. destruct N as [[]|[[-> ->]|[]]]. reflexivity.
    + split; [|split; cbn; lia]. intros a Na. cbn. destruct a; [congruence|reflexivity].
    + intros k v [E|[]]. injection E as <- <-. discriminate.
  - exists [(direct 2, 0)], [(inverse 1, 0)], [0]. split; [|split; [|split]].
    + split; [repeat constructor; cbn; intuition discriminate|]. intros k v. cbn. split.
      * intros [E|[E|[]]]; injection E as <- <-; [exists 2|exists 1]; cbn; tauto.
      * intros (p & [[-> [E|[E|[]]]]|[-> [E|[E|[]]]]]); injection E; intros; subst; try discriminate; cbn; tauto.
    + repeat constructor. exists (CRef 0). split; [apply one_component; auto|]. split; [cbn; auto|].
      intros v r N. cbn in N. destruct N as [-> ->]. reflexivity.
    + split; [|split; cbn; lia]. intros a Na. cbn. destruct a; [congruence|reflexivity].
    + intros k v [E|[]]. injection E as <- <-. discriminate.
Qed.
Print Assumptions C12_hidden_reference_refuted.

(** and C13 fails: the verdict of a pair depends on what was asked before. *)
Theorem C13_hidden_reference_refuted : exists eval external default_pred check_extends (sch : schema) (g : rdf) ord fuel pending r s s' n l,
  orders ord /\ NoDup g /\ no_inheritance sch /\ exact sch /\ without_negation sch /\ defined sch /\
  engine_run eval external default_pred check_extends sch g ord fuel pending fresh = (Some r, s) /\ In (key n l, true) r /\
  engine_prove eval external default_pred check_extends sch g ord fuel n l fresh = (Verdict false, s').
Proof.
  exists ex_eval, no_external, 0, no_extends, hidden_schema, hidden_graph, id_ord, 9, [key 1 1; key 0 0]. do 3 eexists. exists 0, 0.
  destruct hidden_facts as (F1 & F2 & F3 & F4 & F5). split; [exact id_orders|]. do 5 (split; [assumption|]).
  split; [vm_compute; reflexivity|]. split; [|vm_compute; reflexivity]. right. left. reflexivity.
Qed.
Print Assumptions C13_hidden_reference_refuted.

(** ** C21: examples and the differences from ShEx *)

(** the arcs at a node of a concrete graph *)
Ltac each H t := repeat (destruct H as [H|H]; [t|]); destruct H.
Ltac arcs := let k := fresh "k" in let v := fresh "v" in let p := fresh "p" in let H := fresh "H" in
  split; [repeat constructor; cbn; intuition discriminate|]; intros k v; cbn; split;
  [ intro H; each H ltac:(injection H; intros; subst k v; (exists 1; cbn; tauto) || (exists 2; cbn; tauto))
  | intros [p H]; destruct H as [[-> H]|[-> H]]; each H ltac:(injection H; intros; subst; try discriminate; cbn; tauto) ].
Lemma Forall2_in_l {A B} (R : A -> B -> Prop) l l' x : Forall2 R l l' -> In x l -> exists y, In y l' /\ R x y.
Proof. induction 1 as [|a b l l' H _ IH]; intro I; [destruct I|]. destruct I as [->|I]; [exists b; cbn; auto|].
  destruct (IH I) as (y & Y & Z). exists y. cbn. auto. Qed.

Definition typed (l : list nat) : typing := fun n _ => GraphModel.mem n l.
Definition under (T : typing) : nat -> bool := fun k => T (node_of k) (label_of k).

(** [{ :p [1] } CLOSED EXTRA :p] *)
Example C21_hypotheses_met :
  let s := one true [direct 1] (direct 1) (CSingle (Some 1)) once in
  exact_shape s /\ same_remainder s /\ NoDup [(0, 1, 1); (0, 1, 2)] /\
  check_node_shape ex_eval [(0, 1, 1); (0, 1, 2)] 0 s (under (typed [])) = true /\
  check_node_shape ex_eval [(0, 1, 1); (0, 2, 2)] 0 s (under (typed [])) = false /\
  check_node_shape ex_eval [(0, 1, 2)] 0 s (under (typed [])) = false.
Proof.
  intro s. split; [apply one_exact; concrete|]. split; [split; [|split]|].
  - intros k (c & cd & A). apply one_component in A. destruct A as (_ & -> & _). reflexivity.
  - intros c k cd v v' r A _. apply one_component in A. destruct A as (_ & _ & ->). exact (fun H => H).
  - intros _ k [<-|[]]. exists 0, (CSingle (Some 1)). apply one_component. auto.
  - split; [repeat constructor; cbn; intuition discriminate|]. repeat split; vm_compute; reflexivity.
Qed.

(** [{ :p @S } EXTRA :p] on a node with a [:p] that has the shape and one that has not:
    the second is not left over, and the node is rejected. *)
Theorem C21_extra_reference_refuted : exists eval (g : rdf) (T : typing) (n : nat) (s : shape),
  NoDup g /\ exact_shape s /\ check_node_shape eval g n s (under T) = false /\ shape_holds eval g T n s.
Proof.
  set (s := one false [direct 1] (direct 1) (CRef 5) once).
  exists ex_eval, [(0, 1, 1); (0, 1, 2)], (typed [1]), 0, s.
  split; [repeat constructor; cbn; intuition discriminate|]. split; [apply one_exact; concrete|]. split; [vm_compute; reflexivity|].
  exists [(direct 1, 1)], [(direct 1, 2)], [0]. split; [arcs|]. split; [|split].
  - repeat constructor. exists (CRef 5). split; [apply one_component; auto|]. split; [exact I|]. intros v r [-> ->]. reflexivity.
  - split; [|split; cbn; lia]. intros a Na. destruct a; [congruence|reflexivity].
  - intros k v [E|[]] _. injection E as <- <-. split.
    + intros _. split; [left; reflexivity|]. intros (c & cd & A & _ & N). apply one_component in A. destruct A as (_ & _ & ->).
      discriminate (N 2 5 (conj eq_refl eq_refl)).
    + reflexivity.
Qed.
Print Assumptions C21_extra_reference_refuted.

(** [{ :p . } CLOSED EXTRA :q] on a node with a [:q]: accepted although the shape is closed
    and does not mention [:q]. *)
Theorem C21_closed_extra_refuted : exists eval (g : rdf) (T : typing) (n : nat) (s : shape),
  NoDup g /\ exact_shape s /\ check_node_shape eval g n s (under T) = true /\ ~ shape_holds eval g T n s.
Proof.
  set (s := one true [direct 2] (direct 1) (CSingle None) once).
  exists ex_eval, [(0, 1, 1); (0, 2, 2)], (typed []), 0, s.
  split; [repeat constructor; cbn; intuition discriminate|]. split; [apply one_exact; concrete|]. split; [vm_compute; reflexivity|].
  intros (m & r & cs & [_ N] & F & _ & L).
  assert (X : In (direct 2, 2) (m ++ r)) by (apply N; exists 2; left; split; [reflexivity|cbn; tauto]).
  apply in_app_iff in X. destruct X as [X|X].
  - destruct (Forall2_in_l _ _ _ _ F X) as (c & _ & cd & A & _). apply one_component in A. destruct A as (_ & A & _). discriminate.
  - destruct (L _ _ X eq_refl) as [_ Y]. discriminate Y. intros (c & cd & A). apply one_component in A. destruct A as (_ & A & _). discriminate.
Qed.
Print Assumptions C21_closed_extra_refuted.

(** [{ ^:p [1] }] on a node with incoming [:p] arcs from 1 and 2: rejected although the
    other incoming arcs are of no concern. *)
Theorem C21_inverse_refuted : exists eval (g : rdf) (T : typing) (n : nat) (s : shape),
  NoDup g /\ exact_shape s /\ check_node_shape eval g n s (under T) = false /\ shape_holds eval g T n s.
Proof.
  set (s := one false [] (inverse 1) (CSingle (Some 1)) once).
  exists ex_eval, [(1, 1, 0); (2, 1, 0)], (typed []), 0, s.
  split; [repeat constructor; cbn; intuition discriminate|]. split; [apply one_exact; concrete|]. split; [vm_compute; reflexivity|].
  exists [(inverse 1, 1)], [(inverse 1, 2)], [0]. split; [arcs|]. split; [|split].
  - repeat constructor. exists (CSingle (Some 1)). split; [apply one_component; auto|]. split; [reflexivity|]. intros v r [].
  - split; [|split; cbn; lia]. intros a Na. destruct a; [congruence|reflexivity].
  - intros k v [E|[]]. injection E as <- <-. discriminate.
Qed.
Print Assumptions C21_inverse_refuted.

(** [{ :p [1] ? ; :p [2] ? }] accepts a node whose only [:p] is 3. *)
Theorem C21_unmatched_refuted : exists eval (g : rdf) (T : typing) (n : nat) (s : shape),
  NoDup g /\ table_for (s_table s) (rs_rbe (t_rbe (s_table s))) /\ (forall k, In k (s_preds s) <-> mentioned (s_table s) k) /\
  same_remainder s /\ check_node_shape eval g n s (under T) = true /\ ~ shape_holds eval g T n s.
Proof.
  set (e := And [Symbol 0 (mkCard 0 (IntMax 1)); Symbol 1 (mkCard 0 (IntMax 1))]).
  set (t := with_rbe (rs_from e) (snd (add_component 2 (CSingle (Some 2)) (snd (add_component 2 (CSingle (Some 1)) t_new))))).
  assert (C : forall c k cd, component t c k cd -> k = 2 /\ (cd = CSingle (Some 1) \/ cd = CSingle (Some 2))).
  { intros c k cd [A B]. destruct c as [|[|[|c]]]; cbn in A, B; try discriminate; injection A as <-; injection B as <-; auto. }
  exists ex_eval, [(0, 1, 3)], (typed []), 0, (mkShape false [] t [2] []).
  split; [repeat constructor; cbn; intuition discriminate|]. cbn [s_table s_preds]. split; [|split; [|split; [|split]]].
  - split; [repeat constructor|]. split; [reflexivity|]. split; [reflexivity|].
    split; [concrete|]. split; [concrete|]. split; [concrete|]. intros _. simpl. tauto.
  - intro k. split.
    + intros [<-|[]]. exists 0, (CSingle (Some 1)). split; reflexivity.
    + intros (c & cd & A). apply C in A. left. symmetry. apply A.
  - split; [|split].
    + intros k (c & cd & A). apply C in A. destruct A as [-> _]. reflexivity.
    + intros c k cd v v' r _ [].
    + discriminate.
  - vm_compute. reflexivity.
  - intros (m & r & cs & [_ N] & F & _ & L).
    assert (X : In (direct 1, 3) (m ++ r)) by (apply N; exists 1; left; split; [reflexivity|cbn; tauto]).
    apply in_app_iff in X. destruct X as [X|X].
    + destruct (Forall2_in_l _ _ _ _ F X) as (c & _ & cd & A & S & _). apply C in A. destruct A as [_ [-> | ->]]; discriminate S.
    + destruct (L _ _ X eq_refl) as [Y _]. destruct Y as [[] _]. exists 0, (CSingle (Some 1)). split; reflexivity.
Qed.
Print Assumptions C21_unmatched_refuted.
