(* Lemmas about the steps that draw a schema. *)
From Coq Require Import List String Bool Arith ZArith Lia.
Import ListNotations.
From Verif Require Import UmlModel UmlSpec UmlLemmas.
Open Scope list_scope.
Open Scope nat_scope.

Section steps.
Context {L : lib}.
(* names *)
Lemma iri_name_iff r l n : iri_name r l = Ok n <-> iri_called r l n.
Proof.
  unfold iri_called. destruct r as [i|p x]; cbn.
  - split; [intros [= <-]; eexists _, _; split; [constructor|reflexivity]|]. intros (s & j & C & ->). inversion C. reflexivity.
  - destruct (resolve p x) as [i|] eqn:E.
    + split; [intros [= <-]; eexists _, _; split; [constructor; exact E|reflexivity]|]. intros (s & j & C & ->). inversion C; subst. assert (i = j) as -> by congruence. reflexivity.
    + split; [discriminate|]. intros (s & j & C & ->). inversion C; subst. congruence.
Qed.
Lemma label_name_iff l n : label_name l = Ok n <-> shape_called l n.
Proof.
  destruct l as [r|b|]; cbn.
  - rewrite iri_name_iff. split; [intros H; now constructor|intros H; now inversion H].
  - split; [intros [= <-]; constructor|intros H; now inversion H].
  - split; [intros [= <-]; constructor|intros H; now inversion H].
Qed.
Lemma mk_card_usual min max : usual min max -> exists c, mk_card min max = Ok c /\ says_card c min max.
Proof.
  unfold usual, mk_card. fold (bound min). fold (bound max). intros [[A|A] [B|B]]; rewrite A, B; cbn; eexists; (split; [reflexivity|cbn; auto]).
Qed.
Lemma each_iff {A B} (f : A -> res B) (R : A -> B -> Prop) : (forall a b, f a = Ok b <-> R a b) -> forall l bs, each f l = Ok bs <-> Forall2 R l bs.
Proof.
  intros E l. induction l as [|a l IH]; intros bs; cbn.
  - split; [intros [= <-]; constructor|intros H; now inversion H].
  - split.
    + destruct (f a) as [b| |] eqn:F; cbn; try discriminate. destruct (each f l) as [cs| |] eqn:G; cbn; try discriminate. intros [= <-].
      constructor; [now apply E|now apply IH].
    + intros H. inversion H as [|? b ? cs X Y]; subst. apply E in X. apply IH in Y. rewrite X, Y. reflexivity.
Qed.
Lemma all_references_iff l ls : all_references l = Some ls <-> l = List.map SRef ls.
Proof.
  revert ls. induction l as [|e l IH]; intros ls; cbn.
  - split; [intros [= <-]; reflexivity|]. destruct ls; [reflexivity|discriminate].
  - destruct e; try (split; [discriminate|destruct ls; discriminate]). split.
    + destruct (all_references l) as [ks|] eqn:E; [|discriminate]. cbn. intros [= <-]. cbn. f_equal. now apply IH.
    + destruct ls as [|k ks]; [discriminate|]. cbn. intros [= -> H]. apply IH in H. rewrite H. reflexivity.
Qed.
Lemma all_datatypes_iff l ns : all_datatypes l = Ok (Some ns) <-> Forall2 datatype_of l ns.
Proof.
  revert ns. induction l as [|e l IH]; intros ns; cbn.
  - split; [intros [= <-]; constructor|intros H; now inversion H].
  - destruct e as [| | |nc| | |];
      try (split; [discriminate|intros H; inversion H as [|? ? ? ? (nc' & r & X & _)]; subst; discriminate X]).
    split.
    + destruct (nc_datatype nc) as [dt|] eqn:D; [|discriminate]. destruct (iri_name dt None) as [n| |] eqn:N; try discriminate.
      destruct (all_datatypes l) as [[ms|]| |] eqn:A; cbn; try discriminate. intros [= <-]. constructor; [|now apply IH].
      exists nc, dt. split; [reflexivity|split; [exact D|]]. now apply iri_name_iff.
    + intros H. inversion H as [|? n ? ms (nc' & r & X & D & C) F]; subst. injection X as <-. rewrite D. apply iri_name_iff in C. rewrite C.
      apply IH in F. rewrite F. reflexivity.
Qed.
Lemma insert_in n m l : In m (insert n l) <-> n = m \/ In m l.
Proof.
  induction l as [|k l IH]; cbn [insert In]; [tauto|]. destruct (Nat.ltb n k); cbn [insert In]; [tauto|]. destruct (Nat.eqb n k) eqn:E; cbn [insert In].
  - apply Nat.eqb_eq in E. subst. tauto.
  - rewrite IH. tauto.
Qed.

(* references *)
Lemma reference_nodes_good ls : forall nodes u, good u ->
  match reference_nodes ls nodes u with
  | Ok (nodes', v) => exists ns, Forall2 shape_called ls ns /\ good v /\ grows u v /\ links v = links u /\ extends v = extends u /\
      components v = components u /\ (forall m, In m nodes' <-> In m nodes \/ exists n, In n ns /\ node_of v (n_str n) m) /\
      (forall n, In n ns -> exists m, node_of v (n_str n) m)
  | _ => ~ exists ns, Forall2 shape_called ls ns
  end.
Proof.
  induction ls as [|l ls IH]; intros nodes u G; cbn [reference_nodes].
  - exists []. split; [constructor|split; [exact G|split; [apply grows_refl|split; [reflexivity|split; [reflexivity|split; [reflexivity|split]]]]]]; [|intros n []].
    intros m. split; [auto|intros [H|(n & [] & _)]; exact H].
  - destruct (label_name l) as [n| |] eqn:N; cbn [bind].
    2, 3: intros (ns & F); inversion F as [|? n ? ? X]; subst; apply label_name_iff in X; congruence.
    apply label_name_iff in N.
    pose proof (class_node_good (n_str n) u G) as C. destruct (get_node_adding (LClass (n_str n)) u) as [[i found] u1].
    destruct C as (G1 & W1 & N1 & _ & A & B & D). specialize (IH (insert i nodes) u1 G1).
    destruct (reference_nodes ls (insert i nodes) u1) as [[nodes' v]| |].
    + destruct IH as (ns & F & G2 & W2 & A2 & B2 & D2 & M & T). exists (n :: ns). split; [now constructor|split; [exact G2|split; [exact (grows_trans _ _ _ W1 W2)|
        split; [congruence|split; [congruence|split; [congruence|]]]]]].
      pose proof (w_labels _ _ W2 _ N1) as N2. split; [|intros k [<-|K]; [exists i; exact N2|exact (T k K)]].
      intros m. rewrite M, insert_in. split.
      * intros [[<-|H]|(k & K & H)]; [right; exists n; split; [left; reflexivity|exact N2]|auto|right; exists k; split; [right; exact K|exact H]].
      * intros [H|(k & [<-|K] & H)]; [auto| |right; eauto]. left. left. exact (g_labels v G2 _ _ _ N2 H).
    + intros (ns & F). inversion F; subst. eauto.
    + intros (ns & F). inversion F; subst. eauto.
Qed.
Lemma references_unfold node pred c ls o u : references node pred c ls o u =
  do (nodes, u) <- reference_nodes ls [] u;
  do _ <- match o with Not => if Nat.eqb (List.length nodes) 1 then Ok tt else Err | _ => Ok tt end;
  do (k, u) <- logic_node o nodes u; Ok (make_link node k pred c u).
Proof.
  unfold references, logic_node. destruct (reference_nodes ls [] u) as [[nodes v]| |]; cbn [bind]; try reflexivity.
  destruct (match o with Not => _ | _ => _ end); cbn [bind]; try reflexivity.
  destruct (get_logical o nodes v) as [i w]. destruct (get_node_adding (LLogic o i) w) as [[k f] x].
  destruct (get_component k (components x)); cbn [bind]; [reflexivity|].
  destruct (add_component k (Logic o nodes) x); reflexivity.
Qed.
Definition the_link (node k : nat) (pred : name) (c : card) : link := {| l_source := node; l_target := k; l_name := pred; l_card := c |}.
Lemma references_good node pred c ls o s u : good u -> node_of u s node -> (o = Not -> exists l, ls = [l]) ->
  match references node pred c ls o u with
  | Ok v => exists ns ms k, Forall2 shape_called ls ns /\ good v /\ grows u v /\ extends v = extends u /\
      links v = links u ++ ms ++ [the_link node k pred c] /\ members v ms /\ reaches v k (ToShapes o (List.map n_str ns))
  | _ => ~ exists ns, Forall2 shape_called ls ns
  end.
Proof.
  intros G S O. rewrite references_unfold. pose proof (reference_nodes_good ls [] u G) as R.
  assert (K : o = Not -> forall nodes v, reference_nodes ls [] u = Ok (nodes, v) -> List.length nodes = 1).
  { intros E nodes v. destruct (O E) as (l & ->). cbn. destruct (label_name l) as [n| |]; cbn; try discriminate.
    destruct (get_node_adding (LClass (n_str n)) u) as [[i f] w]. intros [= <- _]. reflexivity. }
  destruct (reference_nodes ls [] u) as [[nodes v]| |]; cbn [bind]; [|exact R|exact R].
  destruct R as (ns & F & G1 & W1 & A & B & D & M & T).
  assert (X : match o with Not => if Nat.eqb (List.length nodes) 1 then Ok tt else Err | _ => Ok tt end = Ok tt)
    by (destruct o; try reflexivity; rewrite (K eq_refl nodes v eq_refl); reflexivity).
  rewrite X. cbn [bind]. clear X K.
  destruct (logic_node_good o nodes v G1) as (k & w & ms & E & G2 & W2 & KC & LW & ML & EW).
  { intros m H. apply M in H. destruct H as [[]|(n & _ & H)]. exists (LClass (n_str n)). exact H. }
  rewrite E. cbn [bind].
  assert (KL : labelled w k) by (destruct (g_logic w G2 _ _ _ KC) as (i & Y & _); exists (LLogic o i); exact Y).
  assert (SL : labelled w node) by (exists (LClass s); apply (w_labels _ _ W2), (w_labels _ _ W1), S).
  destruct (make_link_good node k pred c w G2 SL KL) as [G3 W3].
  exists ns, ms, k. split; [exact F|split; [exact G3|split; [exact (grows_trans _ _ _ W1 (grows_trans _ _ _ W2 W3))|split; [cbn; congruence|split]]]].
  - cbn. rewrite LW, A, app_assoc. reflexivity.
  - split; [exact (members_keeps _ _ _ (grows_keeps _ _ W3) ML)|].
    exists nodes. split; [exact KC|]. split.
    + intros x H. apply in_map_iff in H. destruct H as (n & <- & H).
      destruct (T n H) as (m & Y). exists m. split; [apply M; eauto|apply (w_labels _ _ W3), (w_labels _ _ W2), Y].
    + intros m H. apply M in H. destruct H as [[]|(n & H & Y)]. exists (n_str n). split; [now apply in_map|apply (w_labels _ _ W3), (w_labels _ _ W2), Y].
Qed.

(* values *)
Lemma value_names vs ns : each value_name vs = Ok ns <-> Forall2 (fun v n => exists r, v = VIri r /\ iri_called r None n) vs ns.
Proof.
  apply each_iff. intros [r|] n; cbn.
  - rewrite iri_name_iff. split; [eauto|]. intros (r' & E & H). injection E as <-. exact H.
  - split; [discriminate|]. intros (r' & E & _). discriminate.
Qed.
Lemma in_short_some cs : in_short cs = match cs with [] => Any | [c] => c | _ => CAnd cs end.
Proof. reflexivity. Qed.
Lemma constraint_of_good nc :
  match constraint_of nc with Ok v => says (Some (SNode nc)) v /\ v <> NoConstraint | _ => forall v, ~ says (Some (SNode nc)) v end.
Proof.
  unfold constraint_of.
  destruct (nc_datatype nc) as [r|] eqn:D; [destruct (iri_name r None) as [n| |] eqn:N|]; cbn [bind].
  2, 3: intros v S; inversion S as [|? ? ? ? ? _ P _ _| |]; subst; rewrite D in P; inversion P as [|? ? (n & C & _)]; subst; apply iri_name_iff in C; congruence.
  all: destruct (nc_values nc) as [vs|] eqn:V; [destruct (each value_name vs) as [ns| |] eqn:E|]; cbn [bind];
    try (intros v S; inversion S as [|? ? ? ? ? _ _ _ P| |]; subst; rewrite V in P; inversion P as [|? ? (ms & C & _)]; subst; apply value_names in C; congruence).
  all: try apply iri_name_iff in N; try apply value_names in E.
  all: destruct (nc_kind nc) as [k|] eqn:K; destruct (nc_facets nc) as [fs|] eqn:F; cbn;
    (split; [|discriminate]).
  all: match goal with |- says (Some (SNode ?c)) _ =>
    refine (eq_ind _ (fun v => says (Some (SNode c)) v)
      (Says_node c (match nc_kind c with Some k => [Kind (text k)] | None => [] end) _ (match nc_facets c with Some l => [Facet (List.map text l)] | None => [] end) _ _ _ _ _) _ _) end.
  all: try (rewrite K; constructor; reflexivity); try (rewrite F; constructor; reflexivity).
  all: try (rewrite D; constructor; eauto); try (rewrite V; constructor; eauto).
  all: rewrite ?K, ?F; reflexivity.
Qed.
Lemma references_said ls n : ls <> [] -> ~ Forall2 datatype_of (List.map SRef ls) n.
Proof. intros N F. destruct ls as [|l ls]; [congruence|]. inversion F as [|? ? ? ? (nc & r & X & _)]. discriminate X. Qed.
Lemma map_SRef l k : List.map SRef l = List.map SRef k -> l = k.
Proof. revert k. induction l as [|a l IH]; intros [|b k]; cbn; try discriminate; [reflexivity|]. intros [= -> H]. f_equal. auto. Qed.
Lemma value_good e node pred c s u : good u -> node_of u s node ->
  match value_constraint e node pred c u with
  | Ok (v, w) => good w /\ grows u w /\ extends w = extends u /\
      ((v <> NoConstraint /\ says (Some e) v /\ w = u) \/
       (v = NoConstraint /\ exists x ms k, points e x /\ links w = links u ++ ms ++ [the_link node k pred c] /\ members w ms /\ reaches w k x))
  | _ => (forall v, ~ says (Some e) v) /\ forall x, ~ points e x
  end.
Proof.
  intros G S. destruct e as [| |l|nc|l|l|e]; cbn [value_constraint].
  - split; intros x H; inversion H.
  - split; intros x H; inversion H.
  - destruct l as [r|b|]; [|split; intros x H; inversion H|split; intros x H; inversion H].
    destruct (iri_name r None) as [n| |] eqn:N; cbn [bind].
    2, 3: split; [intros x H; inversion H|]; intros x H; inversion H as [r' t i C Q| | |]; subst; assert (Y : iri_called r None {| n_str := t; n_href := Some i; n_label := None |}) by (exists t, i; auto);
          apply iri_name_iff in Y; congruence.
    apply iri_name_iff in N. destruct N as (t & i & C & ->). cbn [n_str]. unfold add_link.
    pose proof (class_node_good t u G) as K. destruct (get_node_adding (LClass t) u) as [[k f] u1].
    destruct K as (G1 & W1 & N1 & _ & A & B & D).
    destruct (make_link_good node k pred c u1 G1) as [G2 W2]; [exists (LClass s); exact (w_labels _ _ W1 _ S)|exists (LClass t); exact N1|].
    split; [exact G2|split; [exact (grows_trans _ _ _ W1 W2)|split; [exact B|right]]]. split; [reflexivity|].
    exists (ToShape t), [], k. split; [econstructor; exact C|split; [cbn; rewrite A; reflexivity|split; [intros l []|exact N1]]].
  - pose proof (constraint_of_good nc) as C. destruct (constraint_of nc) as [v| |]; cbn [bind].
    + destruct C as [C N]. split; [exact G|split; [apply grows_refl|split; [reflexivity|left; auto]]].
    + split; [exact C|intros x H; inversion H].
    + split; [exact C|intros x H; inversion H].
  - destruct (all_references l) as [ls|] eqn:R.
    + apply all_references_iff in R. subst l.
      pose proof (references_good node pred c ls Or s u G S (fun X => False_ind _ ltac:(discriminate X))) as H.
      destruct (references node pred c ls Or u) as [w| |]; cbn [bind].
      * destruct H as (ns & ms & k & F & G1 & W1 & E1 & L1 & M & X). split; [exact G1|split; [exact W1|split; [exact E1|right]]]. split; [reflexivity|].
        exists (ToShapes Or (List.map n_str ns)), ms, k. split; [constructor; exact F|auto].
      * split; [intros v X; inversion X as [| |? ? N F|]; subst; apply (references_said ls ns); [intros ->; apply N; reflexivity|exact F]|].
        intros x X. inversion X as [|ks ns F Y| |]; subst. apply map_SRef in Y. subst. eauto.
      * split; [intros v X; inversion X as [| |? ? N F|]; subst; apply (references_said ls ns); [intros ->; apply N; reflexivity|exact F]|].
        intros x X. inversion X as [|ks ns F Y| |]; subst. apply map_SRef in Y. subst. eauto.
    + assert (NP : forall x, ~ points (SOr l) x).
      { intros x X. inversion X as [|ks ns F Y| |]; subst. assert (Z := proj2 (all_references_iff (List.map SRef ks) ks) eq_refl). congruence. }
      assert (NE : l <> []) by (intros ->; discriminate R).
      destruct (all_datatypes l) as [[ns|]| |] eqn:D; cbn [bind].
      * apply all_datatypes_iff in D. split; [exact G|split; [apply grows_refl|split; [reflexivity|left]]]. split; [discriminate|split; [now constructor|reflexivity]].
      * split; [|exact NP]. intros v X. inversion X as [| |? ? N F|]; subst. apply all_datatypes_iff in F. congruence.
      * split; [|exact NP]. intros v X. inversion X as [| |? ? N F|]; subst. apply all_datatypes_iff in F. congruence.
      * split; [|exact NP]. intros v X. inversion X as [| |? ? N F|]; subst. apply all_datatypes_iff in F. congruence.
  - destruct (all_references l) as [ls|] eqn:R.
    + apply all_references_iff in R. subst l.
      pose proof (references_good node pred c ls And s u G S (fun X => False_ind _ ltac:(discriminate X))) as H.
      destruct (references node pred c ls And u) as [w| |]; cbn [bind].
      * destruct H as (ns & ms & k & F & G1 & W1 & E1 & L1 & M & X). split; [exact G1|split; [exact W1|split; [exact E1|right]]]. split; [reflexivity|].
        exists (ToShapes And (List.map n_str ns)), ms, k. split; [constructor; exact F|auto].
      * split; [intros v X; inversion X as [| | |? ? N F]; subst; apply (references_said ls ns); [intros ->; apply N; reflexivity|exact F]|].
        intros x X. inversion X as [| |ks ns F Y|]; subst. apply map_SRef in Y. subst. eauto.
      * split; [intros v X; inversion X as [| | |? ? N F]; subst; apply (references_said ls ns); [intros ->; apply N; reflexivity|exact F]|].
        intros x X. inversion X as [| |ks ns F Y|]; subst. apply map_SRef in Y. subst. eauto.
    + assert (NP : forall x, ~ points (SAnd l) x).
      { intros x X. inversion X as [| |ks ns F Y|]; subst. assert (Z := proj2 (all_references_iff (List.map SRef ks) ks) eq_refl). congruence. }
      assert (NE : l <> []) by (intros ->; discriminate R).
      destruct (all_datatypes l) as [[ns|]| |] eqn:D; cbn [bind].
      * apply all_datatypes_iff in D. split; [exact G|split; [apply grows_refl|split; [reflexivity|left]]]. split; [discriminate|split; [now constructor|reflexivity]].
      * split; [|exact NP]. intros v X. inversion X as [| | |? ? N F]; subst. apply all_datatypes_iff in F. congruence.
      * split; [|exact NP]. intros v X. inversion X as [| | |? ? N F]; subst. apply all_datatypes_iff in F. congruence.
      * split; [|exact NP]. intros v X. inversion X as [| | |? ? N F]; subst. apply all_datatypes_iff in F. congruence.
  - assert (NS : forall v, ~ says (Some (SNot e)) v) by (intros v X; inversion X).
    destruct (all_references [e]) as [ls|] eqn:R.
    + apply all_references_iff in R. destruct ls as [|l [|k ls]]; cbn in R; try discriminate. injection R as ->.
      pose proof (references_good node pred c [l] Not s u G S (fun _ => ex_intro _ l eq_refl)) as H.
      destruct (references node pred c [l] Not u) as [w| |]; cbn [bind].
      * destruct H as (ns & ms & k & F & G1 & W1 & E1 & L1 & M & X). split; [exact G1|split; [exact W1|split; [exact E1|right]]]. split; [reflexivity|].
        inversion F as [|? n ? ? C F']; subst. inversion F'; subst.
        exists (ToShapes Not [n_str n]), ms, k. split; [constructor; exact C|auto].
      * split; [exact NS|]. intros x X. inversion X as [| | |? n C]; subst. eauto.
      * split; [exact NS|]. intros x X. inversion X as [| | |? n C]; subst. eauto.
    + assert (NP : forall x, ~ points (SNot e) x) by (intros x X; inversion X; subst; discriminate R).
      destruct (all_datatypes [e]) as [o| |]; cbn [bind]; auto.
Qed.

(* triple constraints *)
Definition draws (s : string) (u w : uml) (arrows : list arrow) : Prop :=
  good w /\ grows u w /\ extends w = extends u /\ exists ls, links w = links u ++ ls /\ shown w ls arrows.
Lemma draws_refl s u : good u -> draws s u u [].
Proof. intros G. split; [exact G|split; [apply grows_refl|split; [reflexivity|exists []; split; [now rewrite app_nil_r|constructor]]]]. Qed.
Lemma draws_trans s u v w xs ys : draws s u v xs -> draws s v w ys -> draws s u w (xs ++ ys).
Proof.
  intros (G1 & W1 & E1 & ls & L1 & S1) (G2 & W2 & E2 & ms & L2 & S2). split; [exact G2|split; [exact (grows_trans _ _ _ W1 W2)|split; [congruence|]]].
  exists (ls ++ ms). split; [rewrite L2, L1, app_assoc; reflexivity|]. apply shown_app; [|exact S2]. exact (shown_keeps _ _ _ _ (grows_keeps _ _ W2) S1).
Qed.
Lemma pictures_head s t ts es arrows : pictures s (t :: ts) es arrows ->
  (exists p, iri_called (tc_pred t) (tc_label t) p) /\ ((exists v, says (tc_value t) v) \/ exists e x, tc_value t = Some e /\ points e x).
Proof. intros H. inversion H; subst; eauto 10. Qed.
Lemma triple_good t node es s u : good u -> node_of u s node -> usual (tc_min t) (tc_max t) ->
  match triple_constraint t node es u with
  | Ok (es', w) => exists es1 arrows, es' = es ++ es1 /\ pictures s [t] es1 arrows /\ draws s u w arrows
  | _ => forall ts es1 arrows, ~ pictures s (t :: ts) es1 arrows
  end.
Proof.
  intros G S U. unfold triple_constraint. destruct (iri_name (tc_pred t) (tc_label t)) as [p| |] eqn:P; cbn [bind].
  2, 3: intros ts es1 arrows H; destruct (pictures_head _ _ _ _ _ H) as [(q & X) _]; apply iri_name_iff in X; congruence.
  apply iri_name_iff in P. destruct (mk_card_usual _ _ U) as (c & C & SC). rewrite C. cbn [bind].
  assert (LINE : forall v, says (tc_value t) v -> v <> NoConstraint ->
    match (match v with NoConstraint => Ok (es, u) | _ => Ok (es ++ [{| e_name := p; e_constraint := v; e_card := c |}], u) end) with
    | Ok (es', w) => exists es1 arrows, es' = es ++ es1 /\ pictures s [t] es1 arrows /\ draws s u w arrows
    | _ => forall ts es1 arrows, ~ pictures s (t :: ts) es1 arrows
    end).
  { intros v Y N. assert (Z : exists es1 arrows, es ++ [{| e_name := p; e_constraint := v; e_card := c |}] = es ++ es1 /\ pictures s [t] es1 arrows /\ draws s u u arrows).
    { exists [{| e_name := p; e_constraint := v; e_card := c |}], []. split; [reflexivity|split; [|now apply draws_refl]].
      apply Pictures_line; [exact P|exact Y|exact SC|constructor]. }
    destruct v; try exact Z. congruence. }
  destruct (tc_value t) as [e|] eqn:V; cbn [bind].
  - pose proof (value_good e node p c s u G S) as H. destruct (value_constraint e node p c u) as [[v w]| |]; cbn [bind].
    + destruct H as (G1 & W1 & E1 & [(N & Y & ->)|(-> & x & ms & k & X & L1 & M & R)]).
      * exact (LINE v Y N).
      * eexists [], _. split; [now rewrite app_nil_r|split; [eapply Pictures_arrow; [exact P|exact V|exact X|constructor]|]].
        split; [exact G1|split; [exact W1|split; [exact E1|]]]. eexists. split; [exact L1|].
        apply (shown_app w ms [_] [] [_]); [now apply shown_members|]. apply shown_one.
        split; [exact (w_labels _ _ W1 _ S)|split; [exact R|split; [reflexivity|exact SC]]].
    + intros ts es1 arrows Z. destruct (pictures_head _ _ _ _ _ Z) as [_ [(v & Y)|(e' & x & Q & Y)]]; rewrite V in *; [exact (proj1 H v Y)|injection Q as <-; exact (proj2 H x Y)].
    + intros ts es1 arrows Z. destruct (pictures_head _ _ _ _ _ Z) as [_ [(v & Y)|(e' & x & Q & Y)]]; rewrite V in *; [exact (proj1 H v Y)|injection Q as <-; exact (proj2 H x Y)].
  - exists [{| e_name := p; e_constraint := Any; e_card := c |}], []. split; [reflexivity|split; [|now apply draws_refl]].
    apply Pictures_line; [exact P|rewrite V; constructor|exact SC|constructor].
Qed.
Lemma pictures_app s ts us : forall es fs xs ys, pictures s ts es xs -> pictures s us fs ys -> pictures s (ts ++ us) (es ++ fs) (xs ++ ys).
Proof. intros es fs xs ys H. induction H; intros K; cbn; [exact K|constructor; auto|econstructor; eauto]. Qed.
Lemma pictures_tail s t ts es arrows : pictures s (t :: ts) es arrows -> exists es' arrows', pictures s ts es' arrows'.
Proof. intros H. inversion H; subst; eauto. Qed.
Lemma triples_good ts : forall node es s u, good u -> node_of u s node -> (forall t, In t ts -> usual (tc_min t) (tc_max t)) ->
  match triple_constraints (List.map TC ts) node es u with
  | Ok (es', w) => exists es1 arrows, es' = es ++ es1 /\ pictures s ts es1 arrows /\ draws s u w arrows
  | _ => forall es1 arrows, ~ pictures s ts es1 arrows
  end.
Proof.
  induction ts as [|t ts IH]; intros node es s u G S U; cbn [List.map triple_constraints].
  - exists [], []. split; [now rewrite app_nil_r|split; [constructor|now apply draws_refl]].
  - pose proof (triple_good t node es s u G S (U t (or_introl eq_refl))) as T.
    destruct (triple_constraint t node es u) as [[es' w]| |]; cbn [bind]; [|exact (T ts)|exact (T ts)].
    destruct T as (es1 & xs & -> & P & D). pose proof D as (G1 & W1 & _).
    specialize (IH node (es ++ es1) s w G1 (w_labels _ _ W1 _ S) (fun t H => U t (or_intror H))).
    destruct (triple_constraints (List.map TC ts) node (es ++ es1) w) as [[es2 v]| |].
    + destruct IH as (es3 & ys & -> & Q & D2). exists (es1 ++ es3), (xs ++ ys). split; [now rewrite app_assoc|split].
      * exact (pictures_app s [t] ts _ _ _ _ P Q).
      * exact (draws_trans _ _ _ _ _ _ D D2).
    + intros es2 arrows H. destruct (pictures_tail _ _ _ _ _ H) as (a & b & Q). exact (IH a b Q).
    + intros es2 arrows H. destruct (pictures_tail _ _ _ _ _ H) as (a & b & Q). exact (IH a b Q).
Qed.
Lemma triples_all l : forall node es u r, triple_constraints l node es u = Ok r -> exists ts, l = List.map TC ts.
Proof.
  induction l as [|e l IH]; intros node es u r; cbn; [intros _; exists []; reflexivity|].
  destruct e as [| |t|]; try discriminate. destruct (triple_constraint t node es u) as [[es' w]| |]; cbn [bind]; try discriminate.
  intros H. destruct (IH _ _ _ _ H) as (ts & ->). exists (t :: ts). reflexivity.
Qed.
Lemma map_TC l k : List.map TC l = List.map TC k -> l = k.
Proof. revert k. induction l as [|a l IH]; intros [|b k]; cbn; try discriminate; [reflexivity|]. intros [= -> H]. f_equal. auto. Qed.
Definition body (x : option texpr) (node : nat) (u : uml) : res (list entry * uml) :=
  match x with
  | None => Ok ([], u)
  | Some (EachOf l _ _) => triple_constraints l node [] u
  | Some (TC t) => triple_constraint t node [] u
  | Some _ => Panic
  end.
Lemma body_good x node s u : good u -> node_of u s node -> (forall ts t, constraints x ts -> In t ts -> usual (tc_min t) (tc_max t)) ->
  match body x node u with
  | Ok (es, w) => exists ts arrows, constraints x ts /\ pictures s ts es arrows /\ draws s u w arrows
  | _ => forall ts es arrows, constraints x ts -> ~ pictures s ts es arrows
  end.
Proof.
  intros G S U. destruct x as [[l mi ma|l mi ma|t|l]|]; cbn [body].
  - pose proof (triples_all l node [] u) as A. destruct (triple_constraints l node [] u) as [[es w]| |] eqn:E.
    + destruct (A _ eq_refl) as (ts & ->).
      assert (U' : forall t, In t ts -> usual (tc_min t) (tc_max t)) by (intros t H; exact (U ts t (Constraints_each _ _ _) H)).
      pose proof (triples_good ts node [] s u G S U') as H. rewrite E in H. destruct H as (es1 & xs & -> & P & D). exists ts, xs. split; [constructor|auto].
    + intros ts es arrows C. inversion C as [| |? ? ? Q]; subst.
      assert (U' : forall t, In t ts -> usual (tc_min t) (tc_max t)) by (intros t H; exact (U ts t (Constraints_each _ _ _) H)).
      pose proof (triples_good ts node [] s u G S U') as H. rewrite E in H. apply H.
    + intros ts es arrows C. inversion C as [| |? ? ? Q]; subst.
      assert (U' : forall t, In t ts -> usual (tc_min t) (tc_max t)) by (intros t H; exact (U ts t (Constraints_each _ _ _) H)).
      pose proof (triples_good ts node [] s u G S U') as H. rewrite E in H. apply H.
  - intros ts es arrows C. inversion C.
  - pose proof (triple_good t node [] s u G S (U [t] t (Constraints_one t) (or_introl eq_refl))) as H.
    destruct (triple_constraint t node [] u) as [[es w]| |].
    + destruct H as (es1 & xs & -> & P & D). exists [t], xs. split; [constructor|auto].
    + intros ts es arrows C. inversion C; subst. apply H.
    + intros ts es arrows C. inversion C; subst. apply H.
  - intros ts es arrows C. inversion C.
  - exists [], []. split; [constructor|split; [constructor|now apply draws_refl]].
Qed.

(* shapes that are extended *)
Definition no_more (u w : uml) (known : class -> Prop) : Prop := forall n c, In (n, Class_ c) (components w) -> In (n, Class_ c) (components u) \/ known c.
Lemma extended_good ls : forall node xs s u, good u -> node_of u s node ->
  match extended ls node xs u with
  | Ok (ys, w) => exists ns zs, Forall2 shape_called ls ns /\ ys = xs ++ zs /\ good w /\ grows u w /\ links w = links u /\
      extends w = extends u ++ List.map (pair node) zs /\ Forall2 (node_of w) (List.map n_str ns) zs /\
      no_more u w (fun c => In (c_name c) ns /\ c_entries c = [] /\ c_extends c = [])
  | _ => ~ exists ns, Forall2 shape_called ls ns
  end.
Proof.
  induction ls as [|l ls IH]; intros node xs s u G S; cbn [extended].
  - exists [], []. split; [constructor|split; [now rewrite app_nil_r|split; [exact G|split; [apply grows_refl|split; [reflexivity|split; [now rewrite app_nil_r|split; [constructor|]]]]]]].
    intros n c H. now left.
  - destruct (label_name l) as [n| |] eqn:N; cbn [bind].
    2, 3: intros (ns & F); inversion F as [|? n ? ? X]; subst; apply label_name_iff in X; congruence.
    apply label_name_iff in N.
    pose proof (class_node_good (n_str n) u G) as C. destruct (get_node_adding (LClass (n_str n)) u) as [[x found] u1].
    destruct C as (G1 & W1 & N1 & FR & A & B & D).
    destruct (add_extends_good node x u1 G1) as [G2 W2]; [exists (LClass s); exact (w_labels _ _ W1 _ S)|exists (LClass (n_str n)); exact N1|].
    set (u2 := add_extends node x u1) in *.
    assert (Y : exists u3, (if found then Ok u2 else add_component x (Class_ {| c_name := n; c_entries := []; c_extends := [] |}) u2) = Ok u3 /\
                good u3 /\ grows u2 u3 /\ links u3 = links u2 /\ extends u3 = extends u2 /\
                no_more u2 u3 (fun c => c_name c = n /\ c_entries c = [] /\ c_extends c = [])).
    { destruct found.
      - exists u2. split; [reflexivity|split; [exact G2|split; [apply grows_refl|split; [reflexivity|split; [reflexivity|]]]]]. intros m c H. now left.
      - destruct (add_class_good x {| c_name := n; c_entries := []; c_extends := [] |} u2 G2 N1 (FR eq_refl)) as (u3 & E3 & G3 & W3 & L3 & X3 & _).
        exists u3. split; [exact E3|split; [exact G3|split; [exact W3|split; [exact L3|split; [exact X3|]]]]].
        intros m c H. unfold add_component in E3. destruct (get_component x (components u2)); [discriminate|]. injection E3 as <-. cbn in H.
        destruct H as [[= <- <-]|H]; [right; auto|now left]. }
    destruct Y as (u3 & E3 & G3 & W3 & L3 & X3 & M3). rewrite E3. cbn [bind].
    assert (W : grows u u3) by exact (grows_trans _ _ _ W1 (grows_trans _ _ _ W2 W3)).
    specialize (IH node (xs ++ [x]) s u3 G3 (w_labels _ _ W _ S)).
    destruct (extended ls node (xs ++ [x]) u3) as [[ys w]| |].
    + destruct IH as (ns & zs & F & -> & G4 & W4 & L4 & X4 & F4 & M4). exists (n :: ns), (x :: zs).
      split; [now constructor|split; [now rewrite <- app_assoc|split; [exact G4|split; [exact (grows_trans _ _ _ W W4)|split; [|split; [|split]]]]]].
      * rewrite L4, L3. unfold u2. cbn. exact A.
      * rewrite X4, X3. unfold u2. cbn. rewrite B, <- app_assoc. reflexivity.
      * cbn. constructor; [|exact F4]. apply (w_labels _ _ W4), (w_labels _ _ W3), (w_labels _ _ W2), N1.
      * intros m c H. destruct (M4 m c H) as [H'|(P & Q)]; [|right; split; [right; exact P|exact Q]].
        destruct (M3 m c H') as [H''|(<- & Q)]; [left; rewrite <- D; exact H''|right; split; [left; reflexivity|exact Q]].
    + intros (ns & F). inversion F; subst. eauto.
    + intros (ns & F). inversion F; subst. eauto.
Qed.


(* no class is drawn by arrows *)
Definition classes (u : uml) : list (nat * component) := filter (fun x => match snd x with Class_ _ => true | Logic _ _ => false end) (components u).
Lemma classes_in n c u : In (n, Class_ c) (components u) <-> In (n, Class_ c) (classes u).
Proof. unfold classes. rewrite filter_In. cbn. tauto. Qed.
Lemma get_node_classes l u : classes (snd (get_node_adding l u)) = classes u.
Proof. unfold get_node_adding. destruct (find_label l (labels u)); reflexivity. Qed.
Lemma get_logical_classes o ns u : classes (snd (get_logical o ns u)) = classes u.
Proof. unfold get_logical. destruct (find_logical o ns (logical u)); reflexivity. Qed.
Lemma reference_nodes_classes ls : forall ns u ms v, reference_nodes ls ns u = Ok (ms, v) -> classes v = classes u.
Proof.
  induction ls as [|l ls IH]; intros ns u ms v; cbn [reference_nodes]; [intros [= _ <-]; reflexivity|].
  destruct (label_name l) as [n| |]; cbn [bind]; try discriminate. pose proof (get_node_classes (LClass (n_str n)) u) as C.
  destruct (get_node_adding (LClass (n_str n)) u) as [[i f] w]. cbn in C. intros H. rewrite (IH _ _ _ _ H). exact C.
Qed.
Lemma member_links_classes k nodes : forall u, classes (fold_left (fun u n => make_link k n (plain "member") OneOne u) nodes u) = classes u.
Proof. induction nodes as [|n nodes IH]; intros u; cbn [fold_left]; [reflexivity|]. rewrite IH. reflexivity. Qed.
Lemma logic_node_classes o nodes u k v : logic_node o nodes u = Ok (k, v) -> classes v = classes u.
Proof.
  unfold logic_node. pose proof (get_logical_classes o nodes u) as A. destruct (get_logical o nodes u) as [i u1]. cbn in A.
  pose proof (get_node_classes (LLogic o i) u1) as B. destruct (get_node_adding (LLogic o i) u1) as [[j f] u2]. cbn in B.
  destruct (get_component j (components u2)) eqn:C; cbn [bind]; [intros [= _ <-]; congruence|].
  unfold add_component. rewrite C. cbn [bind]. intros [= _ <-]. rewrite member_links_classes. unfold classes at 1. cbn. fold (classes u2). congruence.
Qed.
Lemma references_classes node pred c ls o u v : references node pred c ls o u = Ok v -> classes v = classes u.
Proof.
  rewrite references_unfold. destruct (reference_nodes ls [] u) as [[nodes w]| |] eqn:R; cbn [bind]; try discriminate.
  destruct (match o with Not => _ | _ => _ end) as [[]| |]; cbn [bind]; try discriminate.
  destruct (logic_node o nodes w) as [[k x]| |] eqn:K; cbn [bind]; try discriminate. intros [= <-].
  apply logic_node_classes in K. apply reference_nodes_classes in R. change (classes x = classes u). congruence.
Qed.
Lemma value_classes e node pred c u v w : value_constraint e node pred c u = Ok (v, w) -> classes w = classes u.
Proof.
  assert (R : forall ls o, (do u' <- references node pred c ls o u; Ok (NoConstraint, u')) = Ok (v, w) -> classes w = classes u).
  { intros ls o. destruct (references node pred c ls o u) as [x| |] eqn:E; cbn [bind]; try discriminate. intros [= _ <-]. exact (references_classes _ _ _ _ _ _ _ E). }
  destruct e as [| |l|nc|l|l|e]; cbn [value_constraint]; try discriminate.
  - destruct l as [r|b|]; try discriminate. destruct (iri_name r None) as [n| |]; cbn [bind]; try discriminate. intros [= _ <-].
    unfold add_link. pose proof (get_node_classes (LClass (n_str n)) u) as B. destruct (get_node_adding (LClass (n_str n)) u) as [[i f] x]. exact B.
  - destruct (constraint_of nc); cbn [bind]; try discriminate. intros [= _ <-]. reflexivity.
  - destruct (all_references l) as [ls|]; [apply R|]. destruct (all_datatypes l) as [[ns|]| |]; cbn [bind]; try discriminate. intros [= _ <-]. reflexivity.
  - destruct (all_references l) as [ls|]; [apply R|]. destruct (all_datatypes l) as [[ns|]| |]; cbn [bind]; try discriminate. intros [= _ <-]. reflexivity.
  - destruct (all_references [e]) as [ls|]; [apply R|]. destruct (all_datatypes [e]) as [o| |]; cbn [bind]; discriminate.
Qed.
Lemma triple_classes t node es u es' w : triple_constraint t node es u = Ok (es', w) -> classes w = classes u.
Proof.
  unfold triple_constraint. destruct (iri_name (tc_pred t) (tc_label t)) as [p| |]; cbn [bind]; try discriminate.
  destruct (mk_card (tc_min t) (tc_max t)) as [c| |]; cbn [bind]; try discriminate.
  destruct (tc_value t) as [e|]; cbn [bind]; [|intros [= _ <-]; reflexivity].
  destruct (value_constraint e node p c u) as [[v x]| |] eqn:E; cbn [bind]; try discriminate. apply value_classes in E.
  destruct v; intros [= _ <-]; exact E.
Qed.
Lemma triples_classes l : forall node es u es' w, triple_constraints l node es u = Ok (es', w) -> classes w = classes u.
Proof.
  induction l as [|e l IH]; intros node es u es' w; cbn [triple_constraints]; [intros [= _ <-]; reflexivity|].
  destruct e as [| |t|]; try discriminate. destruct (triple_constraint t node es u) as [[es1 x]| |] eqn:E; cbn [bind]; try discriminate.
  intros H. apply triple_classes in E. rewrite (IH _ _ _ _ _ H). exact E.
Qed.
Lemma body_classes x node u es w : body x node u = Ok (es, w) -> classes w = classes u.
Proof.
  destruct x as [[l mi ma|l mi ma|t|l]|]; cbn [body]; try discriminate.
  - apply triples_classes.
  - apply triple_classes.
  - intros [= _ <-]. reflexivity.
Qed.

(* a class is drawn *)
Lemma replace_keys n c cs : NoDup (List.map fst cs) -> NoDup (List.map fst (replace_component n c cs)).
Proof.
  assert (K : forall m, In m (List.map fst (replace_component n c cs)) -> m = n \/ In m (List.map fst cs)).
  { intros m H. apply in_map_iff in H. destruct H as ([k d] & <- & H). apply replace_in in H. destruct H as [[-> _]|H]; [now left|right; exact (in_map fst _ _ H)]. }
  revert K. induction cs as [|[m d] cs IH]; cbn; intros K ND; [constructor; [tauto|constructor]|]. inversion ND as [|? ? A B]; subst.
  destruct (Nat.eqb n m) eqn:E; cbn in *.
  - apply Nat.eqb_eq in E. subst. exact ND.
  - apply Nat.eqb_neq in E. constructor.
    + intros H. apply in_map_iff in H. destruct H as ([k e] & X & H). cbn in X. subst k. apply replace_in in H. destruct H as [[X _]|H]; [congruence|].
      apply A. exact (in_map fst _ _ H).
    + apply IH; [|exact B]. intros k H. apply in_map_iff in H. destruct H as ([j e] & <- & H). apply replace_in in H. destruct H as [[-> _]|H]; [now left|right; exact (in_map fst _ _ H)].
Qed.
Lemma keys_same {A} (cs : list (nat * A)) n c d : NoDup (List.map fst cs) -> In (n, c) cs -> In (n, d) cs -> c = d.
Proof.
  induction cs as [|[m e] cs IH]; cbn; [intros _ []|]. intros N [X|X] [Y|Y]; inversion N as [|? ? NA NB]; subst; try congruence; auto; exfalso; apply NA.
  - injection X as <- <-. exact (in_map fst _ _ Y).
  - injection Y as <- <-. exact (in_map fst _ _ X).
Qed.
Lemma update_good n c u : good u -> node_of u (n_str (c_name c)) n ->
  good (update_component n (Class_ c) u) /\ keeps u (update_component n (Class_ c) u).
Proof.
  intros G S. assert (ST : forall m o ns, In (m, Logic o ns) (components u) -> In (m, Logic o ns) (replace_component n (Class_ c) (components u))).
  { intros m o ns H. apply replace_other; [exact H|]. intros ->. exact (node_logic u _ _ _ _ G S H). }
  split; [|split; [auto|exact ST]].
  unfold update_component. split; cbn; try (destruct G; assumption).
  - intros m d H. apply replace_in in H. destruct H as [[-> X]|H]; [injection X as ->; exact S|exact (g_class u G m d H)].
  - intros m o ns H. apply replace_in in H. destruct H as [[-> X]|H]; [discriminate|]. exact (g_logic u G m o ns H).
  - intros m o i H. destruct (g_there u G m o i H) as (ns & X & Y). exists ns. split; [exact X|apply ST, Y].
  - apply replace_keys. exact (g_keys u G).
Qed.
Definition p_called (p : picture) : string := n_str (p_name p).
Lemma nodes_keeps u v ss ns : keeps u v -> Forall2 (node_of u) ss ns -> Forall2 (node_of v) ss ns.
Proof. intros W H. induction H as [|a b l k H C IH]; [constructor|]. constructor; [exact (k_labels _ _ W _ H)|exact IH]. Qed.
Lemma has_class_grows u v p : grows u v -> has_class u p -> has_class v p.
Proof.
  intros W (n & xs & A & B & C). exists n, xs. split; [exact (w_labels _ _ W _ A)|split; [exact (w_components _ _ W _ B)|]].
  exact (nodes_keeps _ _ _ _ (grows_keeps _ _ W) C).
Qed.
Lemma has_class_update u n c p : good u -> node_of u (n_str (c_name c)) n -> p_called p <> n_str (c_name c) -> has_class u p -> has_class (update_component n (Class_ c) u) p.
Proof.
  intros G S N (m & xs & A & B & C). exists m, xs. split; [exact A|split; [|exact C]]. apply replace_other; [exact B|].
  intros ->. apply N. pose proof (g_nodes u G _ _ _ A S) as X. now injection X.
Qed.
Definition pairs_of (p : picture) : list (string * string) := List.map (pair (p_called p)) (p_extends p).
Definition joins (u : uml) (x : nat * nat) (y : string * string) : Prop := node_of u (fst y) (fst x) /\ node_of u (snd y) (snd x).
Definition from_picture (p : picture) (c : class) : Prop :=
  (c_name c = p_name p /\ c_entries c = p_entries p) \/ (In (n_str (c_name c)) (p_extends p) /\ c_entries c = [] /\ c_extends c = []).
Definition ordinary_decl (d : decl) : Prop := forall s ts t, d_expr d = Some s -> constraints (sh_expr s) ts -> In t ts -> usual (tc_min t) (tc_max t).
Lemma shape_component_unfold n s node u : shape_component n s node u =
  do (xs, u) <- extended (sh_extends s) node [] u; do (es, u) <- body (sh_expr s) node u;
  Ok (Class_ {| c_name := match sh_label s with Some l => {| n_str := n_str n; n_href := n_href n; n_label := Some l |} | None => n end; c_entries := es; c_extends := xs |}, u).
Proof. reflexivity. Qed.
Lemma joins_keeps u v es ps : keeps u v -> Forall2 (joins u) es ps -> Forall2 (joins v) es ps.
Proof. intros W H. induction H as [|a b l k [A B] C IH]; [constructor|]. constructor; [|exact IH]. split; apply (k_labels _ _ W); assumption. Qed.
Lemma joins_pairs w s node ss zs : node_of w s node -> Forall2 (node_of w) ss zs -> Forall2 (joins w) (List.map (pair node) zs) (List.map (pair s) ss).
Proof. intros N H. induction H as [|a b l k H C IH]; cbn; [constructor|]. constructor; [split; assumption|exact IH]. Qed.
Lemma decl_good d u : good u -> ordinary_decl d ->
  match convert_decl d u with
  | Ok w => exists p ls es, pictured d p /\ good w /\ keeps u w /\ links w = links u ++ ls /\ shown w ls (p_arrows p) /\
      extends w = extends u ++ es /\ Forall2 (joins w) es (pairs_of p) /\ has_class w p /\
      (forall q, p_called q <> p_called p -> has_class u q -> has_class w q) /\ no_more u w (from_picture p)
  | _ => ~ exists p, pictured d p
  end.
Proof.
  intros G O. unfold convert_decl.
  destruct (label_name (d_id d)) as [n| |] eqn:N; cbn [bind].
  2, 3: intros (p & s & n & ts & xs & _ & C & _); apply label_name_iff in C; congruence.
  apply label_name_iff in N.
  pose proof (class_node_good (n_str n) u G) as C. destruct (get_node_adding (LClass (n_str n)) u) as [[node found] u1].
  destruct C as (G1 & W1 & N1 & _ & A & B & D).
  destruct (d_expr d) as [s|] eqn:E; [|intros (p & s & m & ts & xs & X & _); congruence].
  rewrite shape_component_unfold.
  pose proof (extended_good (sh_extends s) node [] (n_str n) u1 G1 N1) as X.
  destruct (extended (sh_extends s) node [] u1) as [[xs u2]| |]; cbn [bind].
  2, 3: intros (p & s' & m & ts & ys & Y & _ & _ & _ & _ & _ & _ & F & _); assert (s' = s) as -> by congruence; eauto.
  destruct X as (ns & zs & F & -> & G2 & W2 & L2 & X2 & F2 & M2).
  assert (N2 : node_of u2 (n_str n) node) by exact (w_labels _ _ W2 _ N1).
  pose proof (body_good (sh_expr s) node (n_str n) u2 G2 N2 (fun ts t => O s ts t E)) as BG.
  pose proof (body_classes (sh_expr s) node u2) as BC.
  assert (SAME : forall m, shape_called (d_id d) m -> m = n) by (intros m H; apply label_name_iff in H; apply label_name_iff in N; congruence).
  destruct (body (sh_expr s) node u2) as [[es u3]| |]; cbn [bind].
  2, 3: intros (p & s' & m & ts & ys & Y & CM & _ & _ & _ & CT & P & _); assert (s' = s) as -> by congruence; rewrite (SAME m CM) in P; exact (BG _ _ _ CT P).
  specialize (BC _ _ eq_refl).
  destruct BG as (ts & arrows & CT & P & G3 & W3 & X3 & ls & L3 & S3).
  set (nm := match sh_label s with Some l => {| n_str := n_str n; n_href := n_href n; n_label := Some l |} | None => n end).
  assert (NM : n_str nm = n_str n /\ n_href nm = n_href n /\ n_label nm = match sh_label s with Some l => Some l | None => n_label n end) by (unfold nm; destruct (sh_label s); auto).
  destruct NM as (NM1 & NM2 & NM3).
  set (c := {| c_name := nm; c_entries := es; c_extends := [] ++ zs |}).
  assert (N3 : node_of u3 (n_str (c_name c)) node) by (cbn; rewrite NM1; exact (w_labels _ _ W3 _ N2)).
  destruct (update_good node c u3 G3 N3) as [G4 K4].
  assert (W : grows u u3) by exact (grows_trans _ _ _ W1 (grows_trans _ _ _ W2 W3)).
  assert (F3 : Forall2 (node_of (update_component node (Class_ c) u3)) (List.map n_str ns) zs)
    by exact (nodes_keeps _ _ _ _ (keeps_trans _ _ _ (grows_keeps _ _ W3) K4) F2).
  exists {| p_name := nm; p_entries := es; p_extends := List.map n_str ns; p_arrows := arrows |}, ls, (List.map (pair node) zs).
  split; [|split; [exact G4|split; [exact (keeps_trans _ _ _ (grows_keeps _ _ W) K4)|split; [|split; [|split; [|split; [|split; [|split]]]]]]]].
  - exists s, n, ts, ns. cbn. rewrite NM1, NM2, NM3. split; [exact E|split; [exact N|split; [reflexivity|split; [reflexivity|split; [reflexivity|split; [exact CT|split; [exact P|split; [exact F|reflexivity]]]]]]]].
  - cbn. congruence.
  - exact (shown_keeps _ _ _ _ K4 S3).
  - cbn. congruence.
  - unfold pairs_of, p_called. cbn [p_name p_extends]. rewrite NM1.
    assert (N4 : node_of (update_component node (Class_ c) u3) (n_str n) node) by (rewrite <- NM1; exact (k_labels _ _ K4 _ N3)).
    exact (joins_pairs _ _ _ _ _ N4 F3).
  - exists node, zs. split; [exact N3|split; [apply replace_self|exact F3]].
  - intros q Q H. apply has_class_update; [exact G3|exact N3|exact Q|]. exact (has_class_grows _ _ _ W H).
  - intros m k H. cbn in H. apply replace_in in H. destruct H as [[-> Y]|H].
    + injection Y as ->. right. left. auto.
    + apply classes_in in H. rewrite BC in H. apply classes_in in H. destruct (M2 m k H) as [H'|(Y & Z)]; [left; rewrite <- D; exact H'|].
      right. right. cbn. split; [now apply in_map|exact Z].
Qed.
Lemma convert_good ds : forall u, good u -> ordinary ds ->
  match convert ds u with
  | Ok w => exists ps ls es, Forall2 pictured ds ps /\ good w /\ keeps u w /\ links w = links u ++ ls /\ shown w ls (flat_map p_arrows ps) /\
      extends w = extends u ++ es /\ Forall2 (joins w) es (flat_map pairs_of ps) /\
      (forall l p r, ps = l ++ p :: r -> (forall q, In q r -> p_called q <> p_called p) -> has_class w p) /\
      (forall q, (forall p, In p ps -> p_called q <> p_called p) -> has_class u q -> has_class w q) /\
      no_more u w (fun c => exists p, In p ps /\ from_picture p c)
  | _ => ~ Forall (fun d => exists p, pictured d p) ds
  end.
Proof.
  induction ds as [|d ds IH]; intros u G O; cbn [convert].
  - exists [], [], []. split; [constructor|split; [exact G|split; [apply keeps_refl|split; [now rewrite app_nil_r|split; [constructor|split; [now rewrite app_nil_r|split; [constructor|split; [|split]]]]]]]].
    + intros l p r H. destruct l; discriminate.
    + auto.
    + intros n c H. now left.
  - pose proof (decl_good d u G (fun s ts t => O d s ts t (or_introl eq_refl))) as DG.
    destruct (convert_decl d u) as [v| |]; cbn [bind].
    2, 3: intros H; inversion H; auto.
    destruct DG as (p & ls & es & P & G1 & K1 & L1 & S1 & X1 & J1 & H1 & Q1 & M1).
    specialize (IH v G1 (fun d s ts t H => O d s ts t (or_intror H))).
    destruct (convert ds v) as [w| |].
    2, 3: intros H; inversion H; auto.
    destruct IH as (ps & ls2 & es2 & P2 & G2 & K2 & L2 & S2 & X2 & J2 & H2 & Q2 & M2).
    exists (p :: ps), (ls ++ ls2), (es ++ es2). split; [now constructor|split; [exact G2|split; [exact (keeps_trans _ _ _ K1 K2)|split; [|split; [|split; [|split; [|split; [|split]]]]]]]].
    + rewrite L2, L1, app_assoc. reflexivity.
    + cbn. apply shown_app; [exact (shown_keeps _ _ _ _ K2 S1)|exact S2].
    + rewrite X2, X1, app_assoc. reflexivity.
    + cbn. apply Forall2_app; [exact (joins_keeps _ _ _ _ K2 J1)|exact J2].
    + intros l q r E N. destruct l as [|q' l]; cbn in E; injection E as -> E.
      * subst r. apply Q2; [|exact H1]. intros x X Y. apply (N x X). now symmetry.
      * exact (H2 l q r E N).
    + intros q N H. apply Q2; [intros x X; apply N; now right|]. apply Q1; [apply N; now left|exact H].
    + intros n c H. destruct (M2 n c H) as [H'|(x & X & Y)]; [|right; exists x; split; [right; exact X|exact Y]].
      destruct (M1 n c H') as [H''|Y]; [left; exact H''|right; exists p; split; [left; reflexivity|exact Y]].
Qed.
End steps.
