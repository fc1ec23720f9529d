(* Lemmas about the state of diagrams. *)
From Coq Require Import List String Bool Arith ZArith Lia.
Import ListNotations.
From Verif Require Import UmlModel UmlSpec.
Open Scope list_scope.
Open Scope nat_scope.

(* the state *)
Definition labelled (u : uml) (n : nat) : Prop := exists l, In (l, n) (labels u).
Record good (u : uml) : Prop := {
  g_bound : forall l n, In (l, n) (labels u) -> n <= counter u;
  g_labels : forall l n m, In (l, n) (labels u) -> In (l, m) (labels u) -> n = m;
  g_nodes : forall l k n, In (l, n) (labels u) -> In (k, n) (labels u) -> l = k;
  g_logical : forall o ns i, In (o, ns, i) (logical u) -> i <= lcounter u;
  g_unique : forall o ns p ms i, In (o, ns, i) (logical u) -> In (p, ms, i) (logical u) -> o = p /\ ns = ms;
  g_class : forall n c, In (n, Class_ c) (components u) -> In (LClass (n_str (c_name c)), n) (labels u);
  g_logic : forall n o ns, In (n, Logic o ns) (components u) -> exists i, In (LLogic o i, n) (labels u) /\ In (o, ns, i) (logical u);
  g_there : forall n o i, In (LLogic o i, n) (labels u) -> exists ns, In (o, ns, i) (logical u) /\ In (n, Logic o ns) (components u);
  g_keys : NoDup (List.map fst (components u));
  g_links : forall l, In l (links u) -> labelled u (l_source l) /\ labelled u (l_target l);
  g_extends : forall a b, In (a, b) (extends u) -> labelled u a /\ labelled u b;
  g_out : forall a b, In (a, b) (outgoing u) <-> exists l, In l (links u) /\ l_source l = a /\ l_target l = b;
  g_in : forall a b, In (a, b) (incoming u) <-> exists l, In l (links u) /\ l_source l = b /\ l_target l = a }.
(* what stays *)
Record grows (u v : uml) : Prop := {
  w_labels : forall x, In x (labels u) -> In x (labels v);
  w_components : forall x, In x (components u) -> In x (components v) }.
Lemma grows_refl u : grows u u. Proof. split; auto. Qed.
Lemma grows_trans u v w : grows u v -> grows v w -> grows u w. Proof. intros [A B] [C D]. split; auto. Qed.
Lemma good_empty : good empty.
Proof. split; cbn; try tauto; try constructor; intros; firstorder. Qed.

Lemma find_label_some l ls n : find_label l ls = Some n -> In (l, n) ls.
Proof. induction ls as [|[k m] ls IH]; cbn; [discriminate|]. destruct (ulabel_dec l k) as [->|]; [intros [= ->]; auto|auto]. Qed.
Lemma find_label_none l ls : find_label l ls = None -> forall n, ~ In (l, n) ls.
Proof. induction ls as [|[k m] ls IH]; cbn; [auto|]. destruct (ulabel_dec l k) as [->|D]; [discriminate|]. intros E n [[= X _]|X]; [congruence|]. exact (IH E n X). Qed.
Lemma find_logical_some o ns ls i : find_logical o ns ls = Some i -> In (o, ns, i) ls.
Proof.
  induction ls as [|[[p ms] j] ls IH]; cbn; [discriminate|].
  destruct (op_dec o p) as [->|]; [destruct (nodes_dec ns ms) as [->|]|]; [intros [= ->]; auto|auto|auto].
Qed.
Lemma get_component_some n cs c : get_component n cs = Some c -> In (n, c) cs.
Proof. induction cs as [|[m d] cs IH]; cbn; [discriminate|]. destruct (Nat.eqb n m) eqn:E; [apply Nat.eqb_eq in E; subst; intros [= ->]; auto|auto]. Qed.
Lemma get_component_none n cs : get_component n cs = None -> forall c, ~ In (n, c) cs.
Proof.
  induction cs as [|[m d] cs IH]; cbn; [auto|]. destruct (Nat.eqb n m) eqn:E; [discriminate|]. apply Nat.eqb_neq in E.
  intros X c [[= H _]|H]; [congruence|]. exact (IH X c H).
Qed.

(* nodes of classes *)
Lemma class_node_good s u : good u -> let '(n, found, v) := get_node_adding (LClass s) u in
  good v /\ grows u v /\ node_of v s n /\ (found = false -> forall c, ~ In (n, c) (components v)) /\
  links v = links u /\ extends v = extends u /\ components v = components u.
Proof.
  intros G. unfold get_node_adding. destruct (find_label (LClass s) (labels u)) as [n|] eqn:E.
  - apply find_label_some in E. split; [exact G|split; [apply grows_refl|split; [exact E|split; [discriminate|auto]]]].
  - pose proof (find_label_none _ _ E) as N. destruct G. split; [|split; [|split; [|split; [|split; [|split]]]]].
    + split; cbn; try assumption.
      * intros l n [[= <- <-]|H]; [lia|]. apply g_bound0 in H. lia.
      * intros l n m [[= <- <-]|H] [X|H']; try congruence.
        -- destruct (N _ H').
        -- injection X as <- <-. destruct (N _ H).
        -- eauto.
      * intros l k n [[= <- <-]|H] [X|H']; try congruence.
        -- apply g_bound0 in H'. lia.
        -- injection X as <- <-. apply g_bound0 in H. lia.
        -- eauto.
      * intros n c H. right. exact (g_class0 n c H).
      * intros n o ns H. destruct (g_logic0 n o ns H) as (i & X & Y). eauto.
      * intros n o i [[=]|H]. auto.
      * intros l H. destruct (g_links0 l H) as [[x X] [y Y]]. split; eexists; cbn; eauto.
      * intros a b H. destruct (g_extends0 a b H) as [[x X] [y Y]]. split; eexists; cbn; eauto.
    + split; cbn; auto.
    + unfold node_of. cbn. auto.
    + intros _ c H. cbn in H. destruct c as [c|o ns]; [apply g_class0 in H|apply g_logic0 in H; destruct H as (x & H & _)]; apply g_bound0 in H; lia.
    + reflexivity.
    + reflexivity.
    + reflexivity.
Qed.
Lemma make_link_good s t n c u : good u -> labelled u s -> labelled u t ->
  good (make_link s t n c u) /\ grows u (make_link s t n c u).
Proof.
  intros G S T. destruct G. split; [|split; cbn; auto]. split; cbn; try assumption.
  - intros l H. apply in_app_iff in H. destruct H as [H|[<-|[]]]; [apply (g_links0 l H)|auto].
  - intros a b. rewrite g_out0. split.
    + intros [[= <- <-]|(l & H & X)]; [eexists; split; [apply in_app_iff; right; left; reflexivity|auto]|exists l; rewrite in_app_iff; auto].
    + intros (l & H & X). apply in_app_iff in H. destruct H as [H|[<-|[]]]; [right; eauto|left]. cbn in X. destruct X; congruence.
  - intros a b. rewrite g_in0. split.
    + intros [[= <- <-]|(l & H & X)]; [eexists; split; [apply in_app_iff; right; left; reflexivity|auto]|exists l; rewrite in_app_iff; auto].
    + intros (l & H & X). apply in_app_iff in H. destruct H as [H|[<-|[]]]; [right; eauto|left]. cbn in X. destruct X; congruence.
Qed.
Lemma add_extends_good s t u : good u -> labelled u s -> labelled u t -> good (add_extends s t u) /\ grows u (add_extends s t u).
Proof.
  intros G S T. destruct G. split; [|split; cbn; auto]. split; cbn; try assumption.
  intros a b H. apply in_app_iff in H. destruct H as [H|[[= <- <-]|[]]]; [apply (g_extends0 a b H)|auto].
Qed.
Lemma add_class_good n c u : good u -> node_of u (n_str (c_name c)) n -> (forall d, ~ In (n, d) (components u)) ->
  exists v, add_component n (Class_ c) u = Ok v /\ good v /\ grows u v /\ links v = links u /\ extends v = extends u /\ labels v = labels u.
Proof.
  intros G S N. unfold add_component. destruct (get_component n (components u)) as [d|] eqn:E; [apply get_component_some in E; destruct (N d E)|].
  eexists. split; [reflexivity|]. destruct G. split; [|split; [split; cbn; auto|auto]]. split; cbn; try assumption.
  - intros m d [[= <- <-]|H]; [exact S|eauto].
  - intros m o ns [[=]|H]. eauto.
  - intros m o i H. destruct (g_there0 m o i H) as (ns & X & Y). eauto.
  - constructor; [|exact g_keys0]. intros H. apply in_map_iff in H. destruct H as ([m d] & <- & H). exact (N d H).
Qed.
Lemma replace_in n c cs m d : In (m, d) (replace_component n c cs) -> (m = n /\ d = c) \/ In (m, d) cs.
Proof.
  induction cs as [|[k e] cs IH]; cbn.
  - intros [[= <- <-]|[]]. auto.
  - destruct (Nat.eqb n k) eqn:E; cbn.
    + intros [[= <- <-]|H]; auto.
    + intros [[= <- <-]|H]; [auto|]. destruct (IH H) as [X|X]; auto.
Qed.
Lemma replace_other n c cs m d : In (m, d) cs -> m <> n -> In (m, d) (replace_component n c cs).
Proof.
  induction cs as [|[k e] cs IH]; cbn; [intros []|]. intros [[= <- <-]|H] N.
  - destruct (Nat.eqb n k) eqn:E; [apply Nat.eqb_eq in E; congruence|now left].
  - destruct (Nat.eqb n k) eqn:E; [right; exact H|right; auto].
Qed.
Lemma replace_self n c cs : In (n, c) (replace_component n c cs).
Proof. induction cs as [|[k e] cs IH]; cbn; [auto|]. destruct (Nat.eqb n k); cbn; auto. Qed.
Lemma node_logic u s n o ns : good u -> node_of u s n -> ~ In (n, Logic o ns) (components u).
Proof. intros G S H. destruct (g_logic u G n o ns H) as (i & X & _). pose proof (g_nodes u G _ _ _ S X). discriminate. Qed.

(* operators *)
Definition logic_node (o : op) (nodes : list nat) (u : uml) : res (nat * uml) :=
  let (i, u) := get_logical o nodes u in
  let '(k, _, u) := get_node_adding (LLogic o i) u in
  do u <- match get_component k (components u) with
          | Some _ => Ok u
          | None => do u <- add_component k (Logic o nodes) u; Ok (fold_left (fun u n => make_link k n (plain "member") OneOne u) nodes u)
          end;
  Ok (k, u).
(* links that are those of members *)
Definition members (u : uml) (ls : list link) : Prop := forall l, In l ls -> exists o ns, In (l_source l, Logic o ns) (components u) /\ In (l_target l) ns /\ l_name l = text "member" /\ l_card l = OneOne.
Lemma member_links k o all nodes : forall u, good u -> (forall n, In n nodes -> labelled u n /\ In n all) -> In (k, Logic o all) (components u) ->
  let v := fold_left (fun u n => make_link k n (plain "member") OneOne u) nodes u in
  good v /\ grows u v /\ components v = components u /\ labels v = labels u /\ extends v = extends u /\
  exists ls, links v = links u ++ ls /\ members u ls.
Proof.
  induction nodes as [|n nodes IH]; intros u G N K; cbn [fold_left].
  - split; [exact G|split; [apply grows_refl|split; [reflexivity|split; [reflexivity|split; [reflexivity|]]]]]. exists []. split; [now rewrite app_nil_r|intros l []].
  - assert (KL : labelled u k) by (destruct (g_logic u G _ _ _ K) as (i & X & _); exists (LLogic o i); exact X).
    destruct (make_link_good k n (plain "member") OneOne u G KL (proj1 (N n (or_introl eq_refl)))) as [G' W].
    destruct (IH (make_link k n (plain "member") OneOne u) G') as (A & B & C & D & E & ls & F & M).
    { intros m H. destruct (N m (or_intror H)) as [(l & X) Y]. split; [exists l; exact X|exact Y]. }
    { exact K. }
    cbn zeta in *. split; [exact A|split; [exact (grows_trans _ _ _ W B)|split; [exact C|split; [exact D|split; [exact E|]]]]].
    eexists. split; [rewrite F; cbn; rewrite <- app_assoc; reflexivity|].
    intros l [<-|H]; [|exact (M l H)]. exists o, all. cbn. split; [exact K|split; [exact (proj2 (N n (or_introl eq_refl)))|auto]].
Qed.
Lemma logic_node_good o nodes u : good u -> (forall n, In n nodes -> labelled u n) ->
  exists k v ls, logic_node o nodes u = Ok (k, v) /\ good v /\ grows u v /\ In (k, Logic o nodes) (components v) /\
    links v = links u ++ ls /\ members v ls /\ extends v = extends u.
Proof.
  intros G N. unfold logic_node.
  destruct (get_logical o nodes u) as [i u1] eqn:GL.
  (* the first step keeps everything but the table *)
  assert (A : labels u1 = labels u /\ counter u1 = counter u /\ components u1 = components u /\ links u1 = links u /\ extends u1 = extends u /\
              outgoing u1 = outgoing u /\ incoming u1 = incoming u /\ In (o, nodes, i) (logical u1) /\
              (forall x, In x (logical u) -> In x (logical u1)) /\
              (forall p ms j, In (p, ms, j) (logical u1) -> j <= lcounter u1) /\
              (forall p ms q ns j, In (p, ms, j) (logical u1) -> In (q, ns, j) (logical u1) -> p = q /\ ms = ns)).
  { unfold get_logical in GL. destruct (find_logical o nodes (logical u)) as [j|] eqn:E.
    - injection GL as <- <-. apply find_logical_some in E. destruct G. repeat split; try assumption; try reflexivity; auto; eapply g_unique0; eassumption.
    - injection GL as <- <-. cbn. destruct G. split; [reflexivity|split; [reflexivity|split; [reflexivity|split; [reflexivity|split; [reflexivity|
        split; [reflexivity|split; [reflexivity|split; [auto|split; [auto|split]]]]]]]]].
      + intros p ms j [[= <- <- <-]|H]; [lia|]. apply g_logical0 in H. lia.
      + intros p ms q ns j [[= <- <- <-]|H] [X|H'].
        * injection X as <- <-. auto.
        * apply g_logical0 in H'. lia.
        * injection X as <- <- <-. apply g_logical0 in H. lia.
        * eauto. }
  clear GL. destruct A as (A1 & A2 & A3 & A4 & A5 & A6 & A7 & A8 & A9 & A10 & A11).
  assert (G1 : good u1).
  { destruct G. split; try assumption; rewrite ?A1, ?A2, ?A3, ?A4, ?A5, ?A6, ?A7; try assumption.
    - intros n p ms H. destruct (g_logic0 n p ms H) as (j & X & Y). eauto.
    - intros n p j H. destruct (g_there0 n p j H) as (ms & X & Y). eauto.
    - intros l H. unfold labelled. rewrite A1. exact (g_links0 l H).
    - intros a b H. unfold labelled. rewrite A1. exact (g_extends0 a b H). }
  assert (W1 : grows u u1) by (split; [rewrite A1|rewrite A3]; auto).
  assert (N1 : forall n, In n nodes -> labelled u1 n) by (intros n H; unfold labelled; rewrite A1; exact (N n H)).
  unfold get_node_adding. destruct (find_label (LLogic o i) (labels u1)) as [k|] eqn:E.
  - apply find_label_some in E. destruct (g_there u1 G1 _ _ _ E) as (ns & X & Y). destruct (A11 _ _ _ _ _ X A8) as [_ ->].
    destruct (get_component k (components u1)) as [d|] eqn:C; [|destruct (get_component_none _ _ C _ Y)].
    exists k, u1, []. cbn. split; [reflexivity|split; [exact G1|split; [exact W1|split; [exact Y|split; [now rewrite A4, app_nil_r|split; [intros l []|exact A5]]]]]].
  - pose proof (find_label_none _ _ E) as NL. cbn [components].
    assert (NC : forall d, ~ In (S (counter u1), d) (components u1)).
    { intros d H. destruct G1. destruct d as [c|p ms]; [apply g_class0 in H|apply g_logic0 in H; destruct H as (x & H & _)]; apply g_bound0 in H; lia. }
    destruct (get_component (S (counter u1)) (components u1)) as [d|] eqn:C; [apply get_component_some in C; destruct (NC d C)|].
    unfold add_component. cbn [components]. rewrite C. cbn [bind].
    set (u2 := with_components _ _).
    assert (G2 : good u2).
    { destruct G1. unfold u2. split; cbn; try assumption.
      - intros l n [[= <- <-]|H]; [lia|]. apply g_bound0 in H. lia.
      - intros l n m [[= <- <-]|H] [X|H']; try congruence.
        + destruct (NL _ H').
        + injection X as <- <-. destruct (NL _ H).
        + eauto.
      - intros l q n [[= <- <-]|H] [X|H']; try congruence.
        + apply g_bound0 in H'. lia.
        + injection X as <- <-. apply g_bound0 in H. lia.
        + eauto.
      - intros n c [[=]|H]. right. exact (g_class0 n c H).
      - intros n p ms [[= <- <- <-]|H]; [exists i; auto|]. destruct (g_logic0 n p ms H) as (j & X & Y). eauto.
      - intros n p j [[= <- <- <-]|H]; [exists nodes; auto|]. destruct (g_there0 n p j H) as (ms & X & Y). eauto.
      - constructor; [|exact g_keys0]. intros H. apply in_map_iff in H. destruct H as ([m d] & X & H). cbn in X. subst m. exact (NC d H).
      - intros l H. destruct (g_links0 l H) as [[x X] [y Y]]. split; eexists; cbn; eauto.
      - intros a b H. destruct (g_extends0 a b H) as [[x X] [y Y]]. split; eexists; cbn; eauto. }
    assert (W2 : grows u1 u2) by (split; cbn; auto).
    destruct (member_links (S (counter u1)) o nodes nodes u2 G2) as (B1 & B2 & B3 & B4 & B5 & ls & B6 & B7).
    { intros n H. destruct (N1 n H) as (l & X). split; [exists l; cbn; auto|exact H]. }
    { left. reflexivity. }
    eexists _, _, ls. split; [reflexivity|]. split; [exact B1|split; [exact (grows_trans _ _ _ W1 (grows_trans _ _ _ W2 B2))|split]].
    + rewrite B3. left. reflexivity.
    + split; [rewrite B6; cbn; now rewrite A4|split; [|rewrite B5; exact A5]]. intros l H. destruct (B7 l H) as (p & ms & X). rewrite <- B3 in X. eauto.
Qed.

(* arrows: they stay if labels and operators do *)
Record keeps (u v : uml) : Prop := {
  k_labels : forall x, In x (labels u) -> In x (labels v);
  k_logic : forall n o ns, In (n, Logic o ns) (components u) -> In (n, Logic o ns) (components v) }.
Lemma grows_keeps u v : grows u v -> keeps u v. Proof. intros [A B]. split; auto. Qed.
Lemma keeps_refl u : keeps u u. Proof. split; auto. Qed.
Lemma keeps_trans u v w : keeps u v -> keeps v w -> keeps u w. Proof. intros [A B] [C D]. split; auto. Qed.
Lemma reaches_keeps u v n x : keeps u v -> reaches u n x -> reaches v n x.
Proof.
  intros [WL WC]. destruct x as [s|o ss]; cbn; [apply WL|]. intros (ns & A & B & C). exists ns. split; [auto|split].
  - intros s H. destruct (B s H) as (m & X & Y). exists m. split; [exact X|apply WL; exact Y].
  - intros m H. destruct (C m H) as (s & X & Y). exists s. split; [exact X|apply WL; exact Y].
Qed.
Lemma shown_keeps u v ls arrows : keeps u v -> shown u ls arrows -> shown v ls arrows.
Proof.
  intros W. induction 1 as [|l a ls arrows (A & B & C & D) S IH|l o ns ls arrows A B C D S IH]; [constructor| |].
  - constructor; [|exact IH]. split; [apply (k_labels u v W); exact A|split; [exact (reaches_keeps _ _ _ _ W B)|auto]].
  - econstructor; try eassumption. apply (k_logic u v W). exact A.
Qed.
Lemma shown_app u ls ms xs ys : shown u ls xs -> shown u ms ys -> shown u (ls ++ ms) (xs ++ ys).
Proof. induction 1; intros S; cbn; [exact S|constructor; auto|econstructor; eauto]. Qed.
Lemma shown_members u ls : members u ls -> shown u ls [].
Proof.
  induction ls as [|l ls IH]; intros M; [constructor|]. destruct (M l (or_introl eq_refl)) as (o & ns & A & B & C & D).
  econstructor; try eassumption. apply IH. intros k K. apply M. now right.
Qed.
Lemma shown_one u l a : shows u l a -> shown u [l] [a].
Proof. intros S. constructor; [exact S|constructor]. Qed.
Lemma members_keeps u v ls : keeps u v -> members u ls -> members v ls.
Proof. intros W M l H. destruct (M l H) as (o & ns & A & B). exists o, ns. split; [exact (k_logic u v W _ _ _ A)|exact B]. Qed.
