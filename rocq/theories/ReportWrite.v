(** What is written is read back: lemmas. *)
From Coq Require Import List Bool NArith Permutation Lia Arith.
Import ListNotations.
From Verif Require Import PathModel PathSpec PathLemmas ReportModel ReportSpec ReportLemmas.

Lemma N_le_succ_l2 a b : (a < b -> a < N.succ b)%N. Proof. lia. Qed.

(** a stretch of writing that starts at [w] and only adds triples about new blank nodes and about the nodes in [n] *)
Record extends (n : term -> Prop) (w w' : writer) : Prop := mkExtends {
  ex_ready : ready w';
  ex_counter : (w_counter w <= w_counter w')%N;
  ex_keeps : forall x, In x (w_triples w) -> In x (w_triples w');
  ex_new : forall s p o, In (s, p, o) (w_triples w') -> In (s, p, o) (w_triples w) \/ n s \/ exists k, s = TBnode k /\ (w_counter w < k)%N
}.
Lemma extends_refl n w : ready w -> extends n w w.
Proof. intro R. constructor; auto. lia. Qed.
Lemma extends_trans n w w1 w2 : extends n w w1 -> extends n w1 w2 -> extends n w w2.
Proof.
  intros [R1 C1 K1 N1] [R2 C2 K2 N2]. constructor; auto; [lia|]. intros s p o I. destruct (N2 s p o I) as [J|[J|(k & -> & L)]]; auto.
  right. right. exists k. split; [reflexivity|lia].
Qed.
Lemma extends_triple n w k p o : ready w -> n = TBnode k -> (k <= w_counter w)%N -> extends (eq n) w (add_triple w n p o).
Proof.
  intros R -> L. constructor; cbn [add_triple w_triples w_counter]; [|lia|right; assumption|].
  - intros m q x [E|I]; cbn; [injection E as <- <- <-; exact L|exact (R m q x I)].
  - intros s q x [E|I]; [injection E as <- <- <-; auto|auto].
Qed.
Lemma extends_bnode n w m w' : ready w -> add_bnode w = (m, w') -> extends n w w' /\ m = TBnode (w_counter w') /\ w_counter w' = N.succ (w_counter w) /\ w_triples w' = w_triples w.
Proof.
  unfold add_bnode. intros R H. injection H as <- <-. cbn. split; [|repeat split]. constructor; cbn; auto; [|lia].
  intros k p o I. apply R in I. cbn. lia.
Qed.
(** extending the subject of the new node is no more than extending *)
Lemma extends_inner n w w1 w2 m k : extends n w w1 -> extends (eq m) w1 w2 -> m = TBnode k -> (w_counter w < k)%N -> extends n w w2.
Proof.
  intros [R1 C1 K1 N1] [R2 C2 K2 N2] -> L. constructor; auto; [lia|]. intros s p o I. destruct (N2 s p o I) as [J|[<-|(j & -> & J)]]; auto.
  - right. right. exists k. auto.
  - right. right. exists j. split; [reflexivity|lia].
Qed.
(** the triples about a node that is neither in [n] nor new stay the same *)
Lemma extends_same n w w' k p o : extends n w w' -> ~ n (TBnode k) -> (k <= w_counter w)%N ->
  (In (TBnode k, p, o) (w_triples w') <-> In (TBnode k, p, o) (w_triples w)).
Proof.
  intros [R C K N] D L. split; [|apply K]. intro I. destruct (N _ _ _ I) as [J|[J|(j & E & J)]]; auto; [contradiction|]. injection E as <-. lia.
Qed.

(** [h] has the triples of [w'] about the blank nodes made between [w] and [w'] *)
Definition agrees (h : graph) (w w' : writer) : Prop :=
  forall k p o, (w_counter w < k)%N -> (k <= w_counter w')%N -> (In (TBnode k, p, o) h <-> In (TBnode k, p, o) (w_triples w')).

Fixpoint path_cells (ps : list path) (w : writer) : term * writer :=
  match ps with
  | [] => (TIri rdf_nil, w)
  | p :: ps => let (rest, w) := path_cells ps w in let (x, w) := path_to_rdf p w in list_cell w x rest
  end.
Lemma path_to_rdf_seq ps w : path_to_rdf (PSeq ps) w = path_cells ps w.
Proof. reflexivity. Qed.
Lemma path_to_rdf_alt ps w : path_to_rdf (PAlt ps) w = let (l, w) := path_cells ps w in with_predicate w sh_alternative l.
Proof. reflexivity. Qed.

Definition nobody : term -> Prop := fun _ => False.
Lemma agrees_left h w w1 w2 : agrees h w w2 -> extends nobody w1 w2 -> agrees h w w1.
Proof.
  intros A E k p o L1 L2. rewrite (A k p o L1) by (destruct E; lia). apply extends_same with nobody; [exact E|intros []|exact L2].
Qed.
Lemma agrees_right h w w1 w2 : agrees h w w2 -> (w_counter w <= w_counter w1)%N -> agrees h w1 w2.
Proof. intros A L k p o L1 L2. apply A; lia. Qed.

Definition written (w : writer) (p : path) (r : term * writer) : Prop :=
  extends nobody w (snd r) /\ (no_empty_sequence p -> forall h, agrees h w (snd r) -> spells h (fst r) p).

Lemma with_predicate_extends w p o t w' : ready w -> with_predicate w p o = (t, w') -> extends nobody w w' /\
  t = TBnode (w_counter w') /\ (w_counter w < w_counter w')%N /\
  forall q x, In (TBnode (w_counter w'), q, x) (w_triples w') <-> q = p /\ x = o.
Proof.
  intros R H. unfold with_predicate in H. destruct (add_bnode w) as [n w1] eqn:B. injection H as <- <-.
  destruct (extends_bnode nobody w n w1 R B) as (E & -> & C & T). cbn [w_counter add_triple]. split; [|split; [reflexivity|split; [lia|]]].
  - apply extends_inner with w1 (TBnode (w_counter w1)) (w_counter w1); [exact E| |reflexivity|lia].
    apply extends_triple with (w_counter w1); [apply E|reflexivity|lia].
  - intros q x. cbn [w_triples add_triple]. rewrite T. split.
    + intros [K|I]; [injection K as <- <-; auto|]. apply R in I. lia.
    + intros [-> ->]. left. reflexivity.
Qed.
Lemma list_cell_extends w x r t w' : ready w -> list_cell w x r = (t, w') -> extends nobody w w' /\
  t = TBnode (w_counter w') /\ (w_counter w < w_counter w')%N /\
  forall q y, In (TBnode (w_counter w'), q, y) (w_triples w') <-> (q = rdf_first /\ y = x) \/ (q = rdf_rest /\ y = r).
Proof.
  intros R H. unfold list_cell in H. destruct (add_bnode w) as [n w1] eqn:B. injection H as <- <-.
  destruct (extends_bnode nobody w n w1 R B) as (E & -> & C & T). cbn [w_counter add_triple]. split; [|split; [reflexivity|split; [lia|]]].
  - apply extends_inner with w1 (TBnode (w_counter w1)) (w_counter w1); [exact E| |reflexivity|lia].
    apply extends_trans with (add_triple w1 (TBnode (w_counter w1)) rdf_first x);
      (apply extends_triple with (w_counter w1); [|reflexivity|cbn; lia]); [apply E|].
    apply (extends_triple (TBnode (w_counter w1)) w1 (w_counter w1) rdf_first x); [apply E|reflexivity|lia].
  - intros q y. cbn [w_triples add_triple]. rewrite T. split.
    + intros [K|[K|I]]; [injection K as <- <-; auto|injection K as <- <-; auto|]. apply R in I. lia.
    + intros [[-> ->]|[-> ->]]; [right; left; reflexivity|left; reflexivity].
Qed.
Lemma says_written h k p o : (forall q x, In (TBnode k, q, x) h <-> q = p /\ x = o) -> says h (TBnode k) p o.
Proof.
  intro H. split.
  - intro x. rewrite H. tauto.
  - intros q _ D x I. apply H in I. tauto.
Qed.

Lemma path_cells_written ps : Forall (fun p => forall w, ready w -> written w p (path_to_rdf p w)) ps -> forall w, ready w ->
  extends nobody w (snd (path_cells ps w)) /\
  ((fix all (ps : list path) := match ps with [] => True | q :: ps => no_empty_sequence q /\ all ps end) ps ->
   forall h, agrees h w (snd (path_cells ps w)) -> exists ts, chain h (fst (path_cells ps w)) ts /\ Forall2 (spells h) ts ps /\
     (ps <> [] -> exists b, fst (path_cells ps w) = TBnode b)).
Proof.
  intro F. induction F as [|p ps H F IH]; intros w R.
  - cbn. split; [apply extends_refl, R|]. intros _ h _. exists []. split; [constructor|]. split; [constructor|congruence].
  - cbn [path_cells]. destruct (IH w R) as [E1 S1]. destruct (path_cells ps w) as [rest w1] eqn:P1. cbn [fst snd] in *.
    destruct (H w1 (ex_ready _ _ _ E1)) as [E2 S2]. destruct (path_to_rdf p w1) as [x w2] eqn:P2. cbn [fst snd] in *.
    destruct (list_cell w2 x rest) as [t w3] eqn:P3. destruct (list_cell_extends w2 x rest t w3 (ex_ready _ _ _ E2) P3) as (E3 & -> & L3 & T3). cbn [fst snd].
    split; [apply extends_trans with w1; [exact E1|]; apply extends_trans with w2; assumption|].
    intros [N1 N2] h A.
    assert (A3 : agrees h w2 w3) by (apply agrees_right with w; [exact A|destruct E1, E2; lia]).
    assert (A12 : agrees h w w2) by (apply agrees_left with w3; assumption).
    assert (A2 : agrees h w1 w2) by (apply agrees_right with w; [exact A12|apply E1]).
    assert (A1 : agrees h w w1) by (apply agrees_left with w2; assumption).
    destruct (S1 N2 h A1) as (ts & C & G & _). exists (x :: ts).
    assert (T : forall q y, In (TBnode (w_counter w3), q, y) h <-> (q = rdf_first /\ y = x) \/ (q = rdf_rest /\ y = rest)).
    { intros q y. rewrite (A3 (w_counter w3) q y) by lia. apply T3. }
    split; [|split; [|intros _; eexists; reflexivity]].
    + apply chain_cons with rest; [discriminate|reflexivity| | |exact C]; intro y; rewrite T; unfold rdf_first, rdf_rest; split; intro K; auto;
        destruct K as [[K1 K2]|[K1 K2]]; try discriminate; assumption.
    + constructor; [apply S2; assumption|exact G].
Qed.

Lemma path_written p : forall w, ready w -> written w p (path_to_rdf p w).
Proof.
  assert (U : forall p k K, (forall w, ready w -> written w p (path_to_rdf p w)) ->
    (forall h b t q, says h (TBnode b) k t -> spells h t q -> spells h (TBnode b) (K q)) -> (no_empty_sequence (K p) -> no_empty_sequence p) ->
    (forall w, path_to_rdf (K p) w = let (t, w) := path_to_rdf p w in with_predicate w k t) -> forall w, ready w -> written w (K p) (path_to_rdf (K p) w)).
  { intros q k K IH S N E w R. rewrite E. destruct (IH w R) as [E1 S1]. destruct (path_to_rdf q w) as [t w1]. cbn [fst snd] in *.
    destruct (with_predicate w1 k t) as [t2 w2] eqn:P. destruct (with_predicate_extends w1 k t t2 w2 (ex_ready _ _ _ E1) P) as (E2 & -> & L & T).
    split; cbn [fst snd]; [apply extends_trans with w1; assumption|]. intros NE h A. apply S with t.
    - apply says_written. intros p' x. rewrite (A (w_counter w2) p' x) by (destruct E1; lia). apply T.
    - apply S1; [apply N, NE|]. apply agrees_left with w2; assumption. }
  induction p as [i|ps IH|ps IH|p IH|p IH|p IH|p IH] using path_ind'; intros w R.
  - split; [apply extends_refl, R|]. intros _ h _. constructor.
  - rewrite path_to_rdf_alt. destruct (path_cells_written ps IH w R) as [E1 S1]. destruct (path_cells ps w) as [l w1]. cbn [fst snd] in *.
    destruct (with_predicate w1 sh_alternative l) as [t2 w2] eqn:P. destruct (with_predicate_extends w1 _ l t2 w2 (ex_ready _ _ _ E1) P) as (E2 & -> & L & T).
    split; cbn [fst snd]; [apply extends_trans with w1; assumption|]. intros NE h A.
    destruct (S1 NE h) as (ts & C & G & _); [apply agrees_left with w2; assumption|].
    apply sp_alt with l ts; [|exact C|exact G]. apply says_written. intros p' x. rewrite (A (w_counter w2) p' x) by (destruct E1; lia). apply T.
  - rewrite path_to_rdf_seq. destruct (path_cells_written ps IH w R) as [E1 S1]. split; [exact E1|]. intros [Z NE] h A.
    destruct (S1 NE h A) as (ts & C & G & X). destruct (X Z) as (b & E). rewrite E in *. apply sp_seq with ts; assumption.
  - apply U with (k := sh_inverse); auto; intros; eapply sp_inv; eassumption.
  - apply U with (k := sh_zero_or_more); auto; intros; eapply sp_star; eassumption.
  - apply U with (k := sh_one_or_more); auto; intros; eapply sp_plus; eassumption.
  - apply U with (k := sh_zero_or_one); auto; intros; eapply sp_opt; eassumption.
Qed.

(** ** Results *)
Section Results.
  Variable ord : list term -> list term.
  Hypothesis any : any_order ord.
  Variable same : term -> term -> Prop.
  Variables (to_term : term -> term) (to_object : term -> option term).
  Hypothesis iris : forall i, to_object (TIri i) = Some (TIri i).

  Lemma messages_written n ms : forall w,
    w_triples (fold_left (fun w m => add_triple w n sh_message (TLit m)) ms w) = rev (map (fun m => (n, sh_message, TLit m)) ms) ++ w_triples w /\
    w_counter (fold_left (fun w m => add_triple w n sh_message (TLit m)) ms w) = w_counter w.
  Proof.
    induction ms as [|m ms IH]; intro w; cbn [fold_left]; [split; reflexivity|]. destruct (IH (add_triple w n sh_message (TLit m))) as [A B].
    rewrite A, B. cbn [map rev]. rewrite <- app_assoc. split; reflexivity.
  Qed.
  Definition when_some {A} (o : option A) (P : A -> Prop) : Prop := match o with Some a => P a | None => False end.

  (** the triples about the node of a result *)
  Lemma result_written r k w : ready w -> w_counter w = k -> (forall p o, ~ In (TBnode k, p, o) (w_triples w)) ->
    let w' := result_to_rdf to_term r (TBnode k) w in
    extends (eq (TBnode k)) w w' /\
    exists pt : option term,
      (forall p o, In (TBnode k, p, o) (w_triples w') <->
         (p = rdf_type /\ o = TIri sh_result_class) \/ (p = sh_focus_node /\ o = to_term (r_focus r)) \/ (p = sh_component /\ o = to_term (r_comp r)) \/
         (p = sh_severity /\ o = TIri (iri_of_severity (r_sev r))) \/ (p = sh_message /\ exists m, In m (r_msg r) /\ o = TLit m) \/
         (p = sh_source /\ when_some (r_source r) (fun t => o = to_term t)) \/ (p = sh_path /\ pt = Some o) \/
         (p = sh_value /\ when_some (r_value r) (fun t => o = to_term t))) /\
      match r_path r with
      | Some q => exists t, pt = Some t /\ (no_empty_sequence q -> forall h, agrees h w w' -> spells h t q)
      | None => pt = None
      end.
  Proof.
    intros R C NO w'.
    set (n := TBnode k) in *.
    set (w4 := add_triple (add_triple (add_triple (add_triple w n rdf_type (TIri sh_result_class)) n sh_focus_node (to_term (r_focus r))) n sh_component (to_term (r_comp r))) n sh_severity (TIri (iri_of_severity (r_sev r)))).
    set (w5 := fold_left (fun w m => add_triple w n sh_message (TLit m)) (r_msg r) w4).
    set (w6 := match r_source r with Some t => add_triple w5 n sh_source (to_term t) | None => w5 end).
    set (w7 := match r_path r with Some p => let (t, w) := path_to_rdf p w6 in add_triple w n sh_path t | None => w6 end).
    assert (Ew' : w' = match r_value r with Some t => add_triple w7 n sh_value (to_term t) | None => w7 end) by reflexivity.
    assert (C4 : w_counter w4 = k) by exact C.
    destruct (messages_written n (r_msg r) w4) as [T5 C5]. fold w5 in T5, C5.
    assert (C6 : w_counter w6 = k) by (unfold w6; destruct (r_source r); cbn; congruence).
    assert (R0 : forall m p o, In (TBnode m, p, o) (w_triples w6) -> In (TBnode m, p, o) (w_triples w) \/ m = k).
    { intros m p o I. assert (J : In (TBnode m, p, o) (w_triples w5) \/ m = k).
      { unfold w6 in I. destruct (r_source r); [|auto]. cbn in I. destruct I as [I|I]; [injection I as <- <- <-; auto|auto]. }
      destruct J as [J|J]; [|auto]. rewrite T5 in J. apply in_app_iff in J. destruct J as [J|J].
      - apply in_rev, in_map_iff in J. destruct J as (x & J & _). injection J as <- <- <-. auto.
      - cbn in J. repeat (destruct J as [J|J]; [injection J; intros; subst; auto|]). auto. }
    assert (R6 : ready w6). { intros m p o I. destruct (R0 m p o I) as [J| ->]; [|lia]. apply R in J. lia. }
    assert (E6 : extends (eq n) w w6).
    { constructor; [exact R6|lia| |].
      - intros x I. assert (J : In x (w_triples w5)) by (rewrite T5; apply in_app_iff; right; cbn; auto). unfold w6. destruct (r_source r); [right|]; exact J.
      - intros s p o I. assert (J : In (s, p, o) (w_triples w5) \/ s = n).
        { unfold w6 in I. destruct (r_source r); [|auto]. cbn in I. destruct I as [I|I]; [injection I; intros; auto|auto]. }
        destruct J as [J|J]; [|auto]. rewrite T5 in J. apply in_app_iff in J. destruct J as [J|J].
        + apply in_rev, in_map_iff in J. destruct J as (x & J & _). injection J; intros; auto.
        + cbn in J. repeat (destruct J as [J|J]; [injection J; intros; subst; auto|]). auto. }
    assert (T6 : forall p o, In (n, p, o) (w_triples w6) <->
         (p = rdf_type /\ o = TIri sh_result_class) \/ (p = sh_focus_node /\ o = to_term (r_focus r)) \/ (p = sh_component /\ o = to_term (r_comp r)) \/
         (p = sh_severity /\ o = TIri (iri_of_severity (r_sev r))) \/ (p = sh_message /\ exists m, In m (r_msg r) /\ o = TLit m) \/
         (p = sh_source /\ when_some (r_source r) (fun t => o = to_term t))).
    { intros p o. assert (X : In (n, p, o) (w_triples w6) <-> In (n, p, o) (w_triples w5) \/ (p = sh_source /\ when_some (r_source r) (fun t => o = to_term t))).
      { unfold w6. destruct (r_source r) as [t|]; cbn; [|tauto]. split; [intros [I|I]; [injection I; auto|auto]|]. intros [I|[-> ->]]; auto. }
      rewrite X, T5, in_app_iff, <- in_rev, in_map_iff.
      assert (Y : In (n, p, o) (w_triples w4) <-> (p = rdf_type /\ o = TIri sh_result_class) \/ (p = sh_focus_node /\ o = to_term (r_focus r)) \/ (p = sh_component /\ o = to_term (r_comp r)) \/
         (p = sh_severity /\ o = TIri (iri_of_severity (r_sev r)))).
      { cbn. split.
        - intros [I|[I|[I|[I|I]]]]; [injection I; auto 8|injection I; auto 8|injection I; auto 8|injection I; auto 8|destruct (NO _ _ I)].
        - intros [[-> ->]|[[-> ->]|[[-> ->]|[-> ->]]]]; auto 8. }
      rewrite Y. assert (Z : (exists x, (n, sh_message, TLit x) = (n, p, o) /\ In x (r_msg r)) <-> p = sh_message /\ exists m, In m (r_msg r) /\ o = TLit m).
      { split; [intros (x & I & J); injection I as <- <-; eauto|]. intros (-> & m & I & ->). eauto. }
      rewrite Z. tauto. }
    assert (S7 : extends (eq n) w w7 /\ exists pt, (forall p o, In (n, p, o) (w_triples w7) <-> In (n, p, o) (w_triples w6) \/ (p = sh_path /\ pt = Some o)) /\
      match r_path r with
      | Some q => exists t, pt = Some t /\ (no_empty_sequence q -> forall h, agrees h w w7 -> spells h t q)
      | None => pt = None
      end).
    { unfold w7. destruct (r_path r) as [q|].
      - destruct (path_written q w6 R6) as [E7 S7]. destruct (path_to_rdf q w6) as [t w7'] eqn:P7. cbn [fst snd] in *.
        assert (L7 : (k <= w_counter w7')%N) by (destruct E7; lia).
        assert (E7n : extends (eq n) w6 w7') by (destruct E7 as [a b c d]; constructor; auto; intros s p o I; destruct (d s p o I) as [J|[[]|J]]; auto).
        assert (E8 : extends (eq n) w7' (add_triple w7' n sh_path t)) by (apply extends_triple with k; [apply E7|reflexivity|exact L7]).
        split; [apply extends_trans with w6; [exact E6|]; apply extends_trans with w7'; assumption|].
        exists (Some t). split.
        + intros p o. cbn [add_triple w_triples]. unfold n. rewrite <- (extends_same nobody w6 w7' k p o E7); [|intros []|lia]. cbn [In]. split.
          * intros [I|I]; [injection I as <- <-; auto|auto].
          * intros [I|[-> I]]; [auto|]. injection I as ->. auto.
        + exists t. split; [reflexivity|]. intros NE h A. apply S7; [exact NE|]. intros j p o L1 L2. rewrite C6 in L1.
          rewrite (A j p o); [|lia|exact L2]. cbn [add_triple w_triples In]. split; [|auto]. intros [I|I]; [|exact I]. injection I; intros; lia.
      - split; [exact E6|]. exists None. split; [|reflexivity]. intros p o. split; [auto|]. intros [I|[_ I]]; [exact I|discriminate]. }
    clearbody w7. destruct S7 as (E7 & pt & T7 & P7).
    assert (L7 : (k <= w_counter w7)%N) by (destruct E7; lia).
    destruct (r_value r) as [v|].
    - rewrite Ew'. split.
      + apply extends_trans with w7; [exact E7|]. apply extends_triple with k; [apply E7|reflexivity|exact L7].
      + exists pt. split.
        * intros p o. cbn [add_triple w_triples In when_some]. rewrite T7, T6. split.
          -- intros [I|I]; [injection I as <- <-; auto 10|tauto].
          -- intros [I|[I|[I|[I|[I|[I|[I|[-> ->]]]]]]]]; try (left; reflexivity); right; tauto.
        * destruct (r_path r) as [q|]; [|exact P7]. destruct P7 as (t & Et & S). exists t. split; [exact Et|]. intros NE h A. apply S; [exact NE|].
          intros j p o L1 L2. rewrite (A j p o L1 L2). cbn [add_triple w_triples In]. split; [|auto]. intros [I|I]; [|exact I]. injection I; intros; lia.
    - rewrite Ew'. split; [exact E7|]. exists pt. split; [|exact P7]. intros p o. rewrite T7, T6. cbn [when_some]. tauto.
  Qed.

  (** [h] has the triples of [w'] about the blank nodes from [k] on *)
  Definition agrees_from (h : graph) (k : N) (w' : writer) : Prop :=
    forall j p o, (k <= j)%N -> (j <= w_counter w')%N -> (In (TBnode j, p, o) h <-> In (TBnode j, p, o) (w_triples w')).
  Definition readable (h : graph) (m : term) (r : result) : Prop :=
    exists n, forall fuel f, n <= fuel -> exists r' f', parse_result ord h to_object fuel m f = (Ok r', f') /\ alike same r r'.

  Lemma object_for_only h s p o : term_as_subject s = Some s -> only h s p o ->
    object_for ord h to_object s p = match to_object o with Some x => Ok (Some x) | None => Err end.
  Proof. intros E H. unfold object_for. rewrite (objects_only h s p o E H). cbn [bind]. rewrite (ord_one ord any). reflexivity. Qed.
  Lemma object_for_none h s p : term_as_subject s = Some s -> none h s p -> object_for ord h to_object s p = Ok None.
  Proof. intros E H. unfold object_for. rewrite (objects_none h s p E H). cbn [bind]. rewrite (ord_none ord any). reflexivity. Qed.
  Lemma severity_survives s : plain_severity s -> severity_of_iri (iri_of_severity s) = s.
  Proof.
    destruct s as [| | | | |i]; try reflexivity. cbn [plain_severity iri_of_severity]. intro H. unfold severity_of_iri.
    assert (X : forall j, In j [sh_trace; sh_debug; sh_info; sh_warning; sh_violation] -> N.eqb i j = false).
    { intros j J. apply N.eqb_neq. intros ->. exact (H J). }
    rewrite !X by (cbn; tauto). reflexivity.
  Qed.

  Lemma result_readable r k w h : ready w -> w_counter w = k -> (forall p o, ~ In (TBnode k, p, o) (w_triples w)) ->
    writable same to_term to_object r -> agrees_from h k (result_to_rdf to_term r (TBnode k) w) -> readable h (TBnode k) r.
  Proof.
    intros R C NO (Sf & Sc & Ss & Sp & Sv & So & Sd) A. destruct (result_written r k w R C NO) as (E & pt & T & P).
    set (w' := result_to_rdf to_term r (TBnode k) w) in *. assert (Lk : (k <= w_counter w')%N) by (destruct E; lia).
    assert (H : forall p o, In (TBnode k, p, o) h <-> In (TBnode k, p, o) (w_triples w')) by (intros p o; apply A; lia).
    assert (O : forall p o, (forall x, In (TBnode k, p, x) (w_triples w') <-> x = o) -> only h (TBnode k) p o) by (intros p o X x; rewrite H; apply X).
    assert (On : forall p, (forall x, ~ In (TBnode k, p, x) (w_triples w')) -> none h (TBnode k) p) by (intros p X x; rewrite H; apply X).
    destruct Sf as (fo & Ef & Sf). destruct Sc as (co & Ec & Sc).
    assert (F1 : object_for ord h to_object (TBnode k) sh_focus_node = Ok (Some fo)).
    { rewrite (object_for_only h _ _ (to_term (r_focus r))); [rewrite Ef; reflexivity|reflexivity|]. apply O. intro x. rewrite T. split.
      - intros [[X _]|[[X Y]|[[X _]|[[X _]|[[X _]|[[X _]|[[X _]|[X _]]]]]]]]; try discriminate X; exact Y.
      - intros ->. tauto. }
    assert (F2 : object_for ord h to_object (TBnode k) sh_severity = Ok (Some (TIri (iri_of_severity (r_sev r))))).
    { rewrite (object_for_only h _ _ (TIri (iri_of_severity (r_sev r)))); [rewrite iris; reflexivity|reflexivity|]. apply O. intro x. rewrite T. split.
      - intros [[X _]|[[X _]|[[X _]|[[X Y]|[[X _]|[[X _]|[[X _]|[X _]]]]]]]]; try discriminate X; exact Y.
      - intros ->. tauto. }
    assert (F3 : object_for ord h to_object (TBnode k) sh_component = Ok (Some co)).
    { rewrite (object_for_only h _ _ (to_term (r_comp r))); [rewrite Ec; reflexivity|reflexivity|]. apply O. intro x. rewrite T. split.
      - intros [[X _]|[[X _]|[[X Y]|[[X _]|[[X _]|[[X _]|[[X _]|[X _]]]]]]]]; try discriminate X; exact Y.
      - intros ->. tauto. }
    assert (F4 : exists so, object_for ord h to_object (TBnode k) sh_source = Ok so /\ same_option same (r_source r) so).
    { destruct (r_source r) as [t|] eqn:Es.
      - destruct So as (o & Eo & So). exists (Some o). split; [|exact So].
        rewrite (object_for_only h _ _ (to_term t)); [rewrite Eo; reflexivity|reflexivity|]. apply O. intro x. rewrite T. split.
        + intros [[X _]|[[X _]|[[X _]|[[X _]|[[X _]|[[X Y]|[[X _]|[X _]]]]]]]]; try discriminate X; exact Y.
        + intros ->. cbn. tauto.
      - exists None. split; [|exact Logic.I]. apply object_for_none; [reflexivity|]. apply On. intros x X. apply T in X. revert X.
        intros [[X _]|[[X _]|[[X _]|[[X _]|[[X _]|[[X Y]|[[X _]|[X _]]]]]]]]; try discriminate X; exact Y. }
    assert (F5 : exists vo, object_for ord h to_object (TBnode k) sh_value = Ok vo /\ same_option same (r_value r) vo).
    { destruct (r_value r) as [t|] eqn:Es.
      - destruct Sv as (o & Eo & Sv). exists (Some o). split; [|exact Sv].
        rewrite (object_for_only h _ _ (to_term t)); [rewrite Eo; reflexivity|reflexivity|]. apply O. intro x. rewrite T. split.
        + intros [[X _]|[[X _]|[[X _]|[[X _]|[[X _]|[[X _]|[[X _]|[X Y]]]]]]]]; try discriminate X; exact Y.
        + intros ->. cbn. tauto.
      - exists None. split; [|exact Logic.I]. apply object_for_none; [reflexivity|]. apply On. intros x X. apply T in X. revert X.
        intros [[X _]|[[X _]|[[X _]|[[X _]|[[X _]|[[X _]|[[X _]|[X Y]]]]]]]]; try discriminate X; exact Y. }
    assert (F6 : exists n, forall fuel f, n <= fuel -> exists f', get_path_for ord h fuel (TBnode k) sh_path f = (Ok (r_path r), f')).
    { destruct (r_path r) as [q|].
      - destruct P as (t & -> & S). assert (Sh : spells h t q).
        { apply S; [exact Sp|]. intros j p o L1 L2. apply A; [lia|exact L2]. }
        destruct (spells_reads ord h any q t Sh) as (n & Hn). exists n. intros fuel f L. destruct (Hn fuel f L) as (f' & Eq). exists f'.
        unfold get_path_for. rewrite (objects_only h (TBnode k) sh_path t); [|reflexivity|].
        + rewrite (ord_one ord any). unfold pbind. rewrite Eq. reflexivity.
        + apply O. intro x. rewrite T. split.
          * intros [[X _]|[[X _]|[[X _]|[[X _]|[[X _]|[[X _]|[[X Y]|[X _]]]]]]]]; try discriminate X. congruence.
          * intros ->. tauto.
      - subst pt. exists 0. intros fuel f _. exists f. unfold get_path_for. rewrite (objects_none h (TBnode k) sh_path); [|reflexivity|].
        + rewrite (ord_none ord any). reflexivity.
        + apply On. intros x X. apply T in X. revert X. intros [[X _]|[[X _]|[[X _]|[[X _]|[[X _]|[[X _]|[[X Y]|[X _]]]]]]]]; try discriminate X. discriminate Y. }
    destruct F4 as (so & F4 & So'). destruct F5 as (vo & F5 & Sv'). destruct F6 as (n & F6).
    exists n. intros fuel f L. destruct (F6 fuel f L) as (f' & F6').
    exists (mkResult fo co (r_sev r) (r_path r) vo so None []), f'. split.
    - unfold parse_result. rewrite F1, F2, F3. cbn [required bind]. rewrite (severity_survives _ Ss). unfold pbind. rewrite F6', F4, F5. reflexivity.
    - unfold alike. cbn [r_focus r_comp r_sev r_path r_value r_source r_details]. rewrite Sd. split; [exact Sf|]. split; [exact Sc|]. split; [reflexivity|]. split; [reflexivity|]. split; [exact Sv'|]. split; [exact So'|exact Logic.I].
  Qed.

  Lemma agrees_from_left h k w1 w2 (n : term -> Prop) : agrees_from h k w2 -> extends n w1 w2 -> (forall j, (k <= j)%N -> ~ n (TBnode j)) -> agrees_from h k w1.
  Proof.
    intros A E D j p o L1 L2. rewrite (A j p o L1) by (destruct E; lia). apply extends_same with n; [exact E|apply D, L1|exact L2].
  Qed.
  Lemma results_written rs : forall n w, ready w -> (n <= w_counter w)%N ->
    let w' := results_to_rdf to_term rs (TBnode n) w in
    extends (eq (TBnode n)) w w' /\
    exists ms, length ms = length rs /\ NoDup ms /\ (forall m, In m ms -> exists k, m = TBnode k /\ (w_counter w < k)%N) /\
      (forall p o, In (TBnode n, p, o) (w_triples w') <-> In (TBnode n, p, o) (w_triples w) \/ (p = sh_result /\ In o ms)) /\
      (Forall (writable same to_term to_object) rs -> forall h, agrees_from h (N.succ (w_counter w)) w' -> Forall2 (readable h) ms rs).
  Proof.
    induction rs as [|r rs IH]; intros n w R L w'.
    - cbn in w'. subst w'. split; [apply extends_refl, R|]. exists []. split; [reflexivity|]. split; [constructor|]. split; [intros m []|].
      split; [intros p o; cbn; tauto|]. intros _ h _. constructor.
    - cbn [results_to_rdf] in w'. destruct (add_bnode w) as [m w1] eqn:B.
      destruct (extends_bnode (eq (TBnode n)) w m w1 R B) as (E1 & Em & C1 & T1). set (k := w_counter w1) in *.
      assert (R1 : ready w1) by apply E1.
      set (w2 := add_triple w1 (TBnode n) sh_result m) in *.
      assert (E2 : extends (eq (TBnode n)) w1 w2) by (apply extends_triple with n; [exact R1|reflexivity|lia]).
      assert (R2 : ready w2) by apply E2. assert (C2 : w_counter w2 = k) by reflexivity.
      assert (NO : forall p o, ~ In (TBnode k, p, o) (w_triples w2)).
      { intros p o [I|I]; [injection I; intros; lia|]. fold (w_triples w1) in I. cbn in I. rewrite T1 in I. apply R in I. lia. }
      destruct (result_written r k w2 R2 C2 NO) as (E3 & _). set (w3 := result_to_rdf to_term r m w2) in *. rewrite <- Em in E3. fold w3 in E3.
      assert (R3 : ready w3) by apply E3. assert (L3 : (k <= w_counter w3)%N) by (destruct E3; lia).
      destruct (IH n w3 R3) as (E4 & ms & Len & ND & Fr & Tn & Rd); [lia|]. fold w' in E4, Tn, Rd.
      assert (E03 : extends (eq (TBnode n)) w w3).
      { apply extends_inner with w2 m k; [|exact E3|exact Em|lia]. apply extends_trans with w1; assumption. }
      split; [apply extends_trans with w3; assumption|].
      exists (m :: ms). split; [cbn; congruence|]. split.
      { constructor; [|exact ND]. intro I. destruct (Fr m I) as (j & Ej & Lj). rewrite Em in Ej. injection Ej as <-. lia. }
      split. { intros x [<-|I]; [exists k; split; [exact Em|lia]|]. destruct (Fr x I) as (j & Ej & Lj). exists j. split; [exact Ej|lia]. }
      split.
      { intros p o. rewrite Tn. rewrite (extends_same (eq m) w2 w3 n p o E3); [|rewrite Em; intro X; injection X; intros; lia|lia].
        cbn [w2 add_triple w_triples In]. rewrite T1. split.
        - intros [[I|I]|[-> I]]; [injection I as <- <-; auto|auto|auto].
        - intros [I|[-> [<-|I]]]; auto. }
      intros W h A. inversion W as [|? ? W1 W2]; subst. constructor.
      + apply result_readable with w2; [exact R2|exact C2|exact NO|exact W1|].
        apply agrees_from_left with w' (eq (TBnode n)).
        * intros j p o L1 L2. apply A; lia.
        * exact E4.
        * intros j Lj X. injection X as <-. lia.
      + apply Rd; [exact W2|]. intros j p o L1 L2. apply A; [|exact L2]. lia.
  Qed.

  Lemma pmap_readable h ms rs : Forall2 (readable h) ms rs -> exists n, forall fuel f, n <= fuel ->
    exists rs' f', pmap (parse_result ord h to_object fuel) ms f = (Ok rs', f') /\ Forall2 (alike same) rs rs'.
  Proof.
    intro F. induction F as [|m r ms rs [n H] F [n' IH]].
    - exists 0. intros fuel f _. exists [], f. split; [reflexivity|constructor].
    - exists (n + n'). intros fuel f L. destruct (H fuel f) as (r' & f1 & E1 & A1); [lia|]. destruct (IH fuel f1) as (rs' & f2 & E2 & A2); [lia|].
      exists (r' :: rs'), f2. split; [|constructor; assumption]. cbn [pmap]. unfold pbind at 1. rewrite E1. unfold pbind. rewrite E2. reflexivity.
  Qed.
  Lemma forall2_perm {A B} (Q : A -> B -> Prop) l l' : Permutation l l' -> forall m, Forall2 Q l m -> exists m', Permutation m m' /\ Forall2 Q l' m'.
  Proof.
    intro P. induction P as [|x l l' P IH|x y l|l l' l'' P1 IH1 P2 IH2]; intros m F.
    - inversion F; subst. exists []. split; constructor.
    - inversion F as [|? b ? m0 H1 H2]; subst. destruct (IH _ H2) as (m' & P' & F'). exists (b :: m'). split; constructor; assumption.
    - inversion F as [|? b ? m0 H1 H2]; subst. inversion H2 as [|? c ? m1 H3 H4]; subst. exists (c :: b :: m1). split; [constructor|]. repeat constructor; assumption.
    - destruct (IH1 _ F) as (m' & P' & F'). destruct (IH2 _ F') as (m'' & P'' & F''). exists m''. split; [etransitivity; eassumption|exact F''].
  Qed.

  Lemma report_written a w n w' : ready w -> report_to_rdf to_term a w = (n, w') -> Forall (writable same to_term to_object) (results a) ->
    exists N, forall fuel pm f, N <= fuel -> exists b f', parse_report ord (w_triples w') to_object fuel n pm f = (Ok b, f') /\ same_results same (results a) (results b).
  Proof.
    intros R H W. unfold report_to_rdf in H. destruct (add_bnode w) as [n1 w1] eqn:B.
    destruct (extends_bnode nobody w n1 w1 R B) as (E1 & -> & C1 & T1). set (k := w_counter w1) in *.
    assert (NO : forall p o, ~ In (TBnode k, p, o) (w_triples w1)). { intros p o I. rewrite T1 in I. apply R in I. lia. }
    destruct (results a) as [|r rs] eqn:Ra.
    - injection H as <- <-. exists 0. intros fuel pm f _. exists (match pm with Some m => mkReport [] m m | None => mkReport [] no_prefixes no_prefixes end), f.
      split.
      + unfold parse_report. rewrite (objects_none _ (TBnode k) sh_result).
        * rewrite (ord_none ord any). reflexivity.
        * reflexivity.
        * intros x [I|[I|I]]; [discriminate I|discriminate I|exact (NO _ _ I)].
      + destruct pm; exists []; split; constructor.
    - injection H as Hn Hw. set (w2 := add_triple (add_triple w1 (TBnode k) rdf_type (TIri sh_report_class)) (TBnode k) sh_conforms (to_term (TLit lit_false))).
      assert (E2 : extends (eq (TBnode k)) w1 w2).
      { assert (Ea : extends (eq (TBnode k)) w1 (add_triple w1 (TBnode k) rdf_type (TIri sh_report_class))) by (apply extends_triple with k; [apply E1|reflexivity|lia]).
        apply extends_trans with (add_triple w1 (TBnode k) rdf_type (TIri sh_report_class)); [exact Ea|].
        apply extends_triple with k; [apply Ea|reflexivity|cbn; lia]. }
      destruct (results_written (r :: rs) k w2 (ex_ready _ _ _ E2)) as (E3 & ms & Len & ND & Fr & Tn & Rd); [cbn; lia|].
      set (w3 := results_to_rdf to_term (r :: rs) (TBnode k) w2) in *.
      assert (Ew : w' = w3) by (symmetry; exact Hw). rewrite Ew, <- Hn. clear Ew Hw. clearbody w3.
      assert (F : Forall2 (readable (w_triples w3)) ms (r :: rs)) by (apply Rd; [exact W|]; intros j p o _ _; reflexivity).
      destruct (objects_for_ok (w_triples w3) (TBnode k) sh_result eq_refl) as (l & El).
      assert (P : Permutation ms (ord l)).
      { symmetry. etransitivity; [apply any|]. symmetry. apply NoDup_Permutation; [exact ND|exact (proj2 (objects_for_in _ _ _ l (TBnode k) El))|].
        intro x. rewrite (proj1 (objects_for_in _ _ _ l x El)), Tn. split; [auto|]. intros [[I|[I|I]]|[_ I]]; [discriminate I|discriminate I|destruct (NO _ _ I)|exact I]. }
      destruct (forall2_perm _ _ _ P _ F) as (rs1 & P1 & F1).
      destruct (pmap_readable _ _ _ F1) as (N & HN). exists N. intros fuel pm f L. destruct (HN fuel f L) as (rs' & f' & Ep & Al).
      exists (match pm with Some m => mkReport rs' m m | None => mkReport rs' no_prefixes no_prefixes end), f'. split.
      + unfold parse_report. rewrite El. unfold pbind. rewrite Ep. reflexivity.
      + assert (Er : results (match pm with Some m => mkReport rs' m m | None => mkReport rs' no_prefixes no_prefixes end) = rs') by (destruct pm; reflexivity).
        rewrite Er. destruct (forall2_perm _ _ _ (Permutation_sym P1) _ Al) as (m' & Pm & Fm). exists m'. split; [symmetry; exact Pm|exact Fm].
  Qed.
End Results.
