(** The partitions of the arcs among buckets are all those that can match. *)
From Coq Require Import List Arith Bool Lia Permutation.
Import ListNotations.
From Verif Require Import RbeModel RbeSpec RbeDeriv TableModel TableSpec TableLemmas StepModel StepSpec
  ClassModel ClassSpec ClassLemmas ClassFinal EngineModel EngineSpec EngineShape XtdModel XtdSpec.

Lemma F2_perm {A B} (R : A -> B -> Prop) a a' c : Permutation a a' -> Forall2 R a c -> exists c', Permutation c c' /\ Forall2 R a' c'.
Proof.
  intro P. revert c. induction P as [|x a a' P IH|x y a|a b d P1 IH1 P2 IH2]; intros c F.
  - exists c. split; [reflexivity|exact F].
  - inversion F as [|? z ? c0 X F']; subst. destruct (IH c0 F') as (c1 & Q & G). exists (z :: c1). split; [constructor; exact Q|constructor; assumption].
  - inversion F as [|? z ? c0 X F']; subst. inversion F' as [|? w ? c1 Y F'']; subst. exists (w :: z :: c1).
    split; [apply perm_swap|repeat constructor; assumption].
  - destruct (IH1 c F) as (c1 & Q1 & F1). destruct (IH2 c1 F1) as (c2 & Q2 & F2). exists c2. split; [etransitivity; eassumption|exact F2].
Qed.

Lemma all_matched_perm eval T t a b : Permutation a b -> all_matched eval T t a -> all_matched eval T t b.
Proof.
  intros P (cs & F & L). destruct (F2_perm _ a b cs P F) as (cs' & Q & F'). exists cs'. split; [exact F'|].
  exact (lang_ext _ _ _ (bag_of_perm _ _ Q) L).
Qed.

Lemma received_In {A} (v : list A) a b x : In x (received v a b) -> exists i, nth_error v i = Some x /\ nth_error a i = Some b.
Proof.
  revert a. induction v as [|y v IH]; intros [|i a] H; try destruct H. simpl in H. destruct (Nat.eqb_spec i b) as [->|N].
  - destruct H as [->|H]; [exists 0; auto|]. destruct (IH a H) as (j & J). exists (S j). exact J.
  - destruct (IH a H) as (j & J). exists (S j). exact J.
Qed.
Lemma In_received {A} (v : list A) a b x i : nth_error v i = Some x -> nth_error a i = Some b -> In x (received v a b).
Proof.
  revert a i. induction v as [|y v IH]; intros [|c a] [|i] H K; try discriminate; simpl in *.
  - injection H as ->. injection K as ->. rewrite Nat.eqb_refl. left. reflexivity.
  - destruct (c =? b); [right|]; eapply IH; eassumption.
Qed.
Lemma received_NoDup {A} (v : list A) a b : NoDup v -> NoDup (received v a b).
Proof.
  intro N. revert a. induction N as [|x v Nx N IH]; intros [|c a]; simpl; try constructor.
  destruct (c =? b); [|apply IH]. constructor; [|apply IH]. intro H. apply received_In in H. destruct H as (i & H & _).
  apply Nx. exact (nth_error_In _ _ H).
Qed.

Lemma distribution_perm {A} (v : list A) a k : length v = length a -> (forall b, In b a -> b < k) -> Permutation (concat (distribution v k a)) v.
Proof.
  intros L H. unfold distribution. revert a L H. induction v as [|x v IH]; intros [|b a] L H; try discriminate.
  - cbn [received]. assert (E : forall l : list nat, concat (map (fun _ : nat => @nil A) l) = []) by (induction l; auto).
    rewrite E. constructor.
  - injection L as L. specialize (IH a L (fun c Hc => H c (or_intror Hc))).
    assert (Hb : b < k) by (apply H; left; reflexivity).
    etransitivity; [|apply perm_skip; exact IH]. clear IH H L.
    assert (Q : forall s m, s <= b < s + m -> Permutation (concat (map (received (x :: v) (b :: a)) (seq s m))) (x :: concat (map (received v a) (seq s m)))).
    { intros s m. revert s. induction m as [|m IHm]; intros s R; [lia|]. cbn [seq map concat received]. destruct (Nat.eqb_spec b s) as [->|N].
      - simpl. apply perm_skip. apply Permutation_app_head.
        assert (X : map (received (x :: v) (s :: a)) (seq (S s) m) = map (received v a) (seq (S s) m)).
        { apply map_ext_in. intros j Hj. apply in_seq in Hj. simpl. destruct (Nat.eqb_spec s j); [lia|reflexivity]. }
        cbn [received] in X. rewrite X. reflexivity.
      - etransitivity; [apply Permutation_app_head; apply (IHm (S s)); lia|]. symmetry. apply Permutation_middle. }
    apply (Q 0 k). lia.
Qed.

(** the index of the part that contains an arc *)
Definition pair_dec (x y : nat * nat) : {x = y} + {x <> y}.
Proof. decide equality; apply Nat.eq_dec. Defined.
Fixpoint idx (kv : nat * nat) (p : list (list (nat * nat))) : nat :=
  match p with [] => 0 | part :: p => if in_dec pair_dec kv part then 0 else S (idx kv p) end.
Lemma HI kv q : In kv (concat q) -> exists part, nth_error q (idx kv q) = Some part /\ In kv part.
Proof.
  induction q as [|part q IH]; intro H; [destruct H|]. simpl. destruct (in_dec pair_dec kv part) as [I|I]; [exists part; auto|].
  simpl in H. apply in_app_iff in H. destruct H as [H|H]; [contradiction|]. exact (IH H).
Qed.
Lemma HU kv q : forall j part, NoDup (concat q) -> nth_error q j = Some part -> In kv part -> idx kv q = j.
Proof.
  induction q as [|part0 q IH]; intros j part N E I; [destruct j; discriminate|]. simpl in N. apply NoDup_app_elim in N.
  destruct N as (_ & N2 & N3). simpl. destruct j as [|j]; simpl in E.
  - injection E as ->. destruct (in_dec pair_dec kv part); [reflexivity|contradiction].
  - destruct (in_dec pair_dec kv part0) as [I0|_].
    + exfalso. apply (N3 kv I0). apply in_concat. exists part. split; [exact (nth_error_In _ _ E)|exact I].
    + f_equal. exact (IH j part N2 E I).
Qed.

Section Part.
  Variable eval : nat -> nat -> bool.
  Variable corder : list class -> list class.
  Hypothesis H_corder : forall l, Permutation l (corder l).

  Lemma drain_collected f buckets classes : forall s ps, drain eval f buckets classes s = Some ps -> collected eval buckets classes s ps.
  Proof.
    induction f as [|f IH]; intros s ps H; [discriminate|]. cbn [drain] in H.
    destruct (cp_next eval buckets classes f s) as [[[x|] s']|] eqn:E; [| |discriminate].
    - destruct (drain eval f buckets classes s') as [l|] eqn:D; [|discriminate]. injection H as <-.
      econstructor; [exact E|]. apply IH. exact D.
    - injection H as <-. econstructor. exact E.
  Qed.
  Lemma collected_drain buckets classes s l : collected eval buckets classes s l ->
    exists f0, forall f, f0 <= f -> drain eval f buckets classes s = Some l.
  Proof.
    induction 1 as [f s s' N|f s s' x l N C (f0 & IH)].
    - exists (S f). intros [|f'] L; [lia|]. cbn [drain]. rewrite (next_le eval buckets classes f f' s _ ltac:(lia) N). reflexivity.
    - exists (S (Nat.max f f0)). intros [|f'] L; [lia|]. cbn [drain]. rewrite (next_le eval buckets classes f f' s _ ltac:(lia) N).
      rewrite (IH f' ltac:(lia)). reflexivity.
  Qed.

  Variable T : typing.
  Variable bs : list (option nat * table).
  Variable vs : list (nat * nat).
  Hypothesis H_tables : forall b, In b bs -> table_for (snd b) (rs_rbe (t_rbe (snd b))).

  Lemma nth_tables j t : In t (nth j (tables_of bs) []) -> exists b, nth_error bs j = Some b /\ t = snd b.
  Proof.
    unfold tables_of. revert j. generalize bs as l. intro l. induction l as [|b l IH]; intros [|j] H; try destruct H; simpl in H.
    - exists b. split; [reflexivity|symmetry; exact H].
    - destruct H.
    - exact (IH j H).
  Qed.
  Lemma tables_nth j b : nth_error bs j = Some b -> nth j (tables_of bs) [] = [snd b].
  Proof.
    unfold tables_of. revert j. generalize bs as l. intro l. induction l as [|c l IH]; intros [|j] H; try discriminate; simpl in *; [injection H as ->; reflexivity|auto].
  Qed.
  Lemma tables_length : length (tables_of bs) = length bs.
  Proof. apply map_length. Qed.
  Lemma mentions_bucket j k : mentions (tables_of bs) j k <-> exists b, nth_error bs j = Some b /\ mentioned (snd b) k.
  Proof.
    split.
    - intros (t & c & cd & H & C). apply nth_tables in H. destruct H as (b & B & ->). exists b. split; [exact B|exists c, cd; exact C].
    - intros (b & B & c & cd & C). exists (snd b), c, cd. rewrite (tables_nth j b B). split; [left; reflexivity|exact C].
  Qed.

  Lemma partitions_total : exists f0 ps, forall f, f0 <= f -> partitions eval corder f bs vs = Some ps.
  Proof.
    unfold partitions. set (cl := corder (class_map (tables_of bs) vs)).
    destruct (class_partitions_total (can_match eval) eval (tables_of bs) vs cl) as (placed & dropped & l & _ & _ & C & _).
    - intros j t Ht. apply nth_tables in Ht. destruct Ht as (b & B & ->). apply (H_tables b (nth_error_In _ _ B)).
    - intros j t part rest pool Ht. apply can_match_feasible. apply nth_tables in Ht. destruct Ht as (b & B & ->).
      apply (H_tables b (nth_error_In _ _ B)).
    - apply H_corder.
    - destruct (collected_drain _ _ _ _ C) as (f0 & F). exists f0. eexists. exact F.
  Qed.

  Hypothesis H_vs : NoDup vs.
  Hypothesis H_mentioned : forall kv, In kv vs -> exists b, In b bs /\ mentioned (snd b) (fst kv).

  Lemma partitions_spec f ps : partitions eval corder f bs vs = Some ps ->
    (forall p, In p ps -> Forall2 (fun b part => forall kv, In kv part -> mentioned (snd b) (fst kv)) bs p /\ Permutation (concat p) vs) /\
    (forall p, Forall2 (fun b part => all_matched eval T (snd b) part) bs p -> Permutation (concat p) vs ->
       exists p', In p' ps /\ Forall2 (@Permutation _) p p').
  Proof.
    unfold partitions. set (cl := corder (class_map (tables_of bs) vs)). intro D. apply drain_collected in D.
    destruct (class_partitions_total (can_match eval) eval (tables_of bs) vs cl) as (placed & dropped & l & P & DR & C & ND & SD & CP).
    { intros j t Ht. apply nth_tables in Ht. destruct Ht as (b & B & ->). apply (H_tables b (nth_error_In _ _ B)). }
    { intros j t part rest pool Ht. apply can_match_feasible. apply nth_tables in Ht. destruct Ht as (b & B & ->).
      apply (H_tables b (nth_error_In _ _ B)). }
    { apply H_corder. }
    pose proof (collected_det eval (tables_of bs) cl _ _ _ D C) as ->. clear D C.
    assert (dropped = []) as ->.
    { destruct dropped as [|kv dropped]; [reflexivity|exfalso].
      destruct (H_mentioned kv) as (b & B & M).
      { apply (Permutation_in _ P). apply in_app_iff. right. left. reflexivity. }
      apply In_nth_error in B. destruct B as (j & B). apply (DR kv j); [left; reflexivity| |].
      - rewrite tables_length. apply nth_error_Some. congruence.
      - apply mentions_bucket. eauto. }
    rewrite app_nil_r in P. rewrite tables_length in *.
    assert (NP : NoDup placed) by (apply (Permutation_NoDup (Permutation_sym P)); exact H_vs).
    split.
    - intros p Hp. apply in_map_iff in Hp. destruct Hp as (a & <- & Ha). specialize (SD a Ha).
      assert (L : length placed = length a) by (clear - SD; induction SD; simpl; congruence).
      split.
      + assert (X : forall j b kv, nth_error bs j = Some b -> In kv (received placed a j) -> mentioned (snd b) (fst kv)).
        { intros j b kv B H. apply received_In in H. destruct H as (i & H1 & H2).
          assert (Y : j < length (tables_of bs) /\ mentions (tables_of bs) j (fst kv)).
          { clear - SD H1 H2. revert i H1 H2. induction SD as [|x y l l' XY F IH]; intros [|i] H1 H2; try discriminate; simpl in *.
            - injection H1 as ->. injection H2 as ->. exact XY.
            - exact (IH i H1 H2). }
          destruct Y as [_ Y]. apply mentions_bucket in Y. destruct Y as (b' & B' & M). congruence. }
        unfold distribution. revert X. generalize (received placed a). clear. intro r.
        assert (G : forall s, (forall j b kv, nth_error bs j = Some b -> In kv (r (s + j)) -> mentioned (snd b) (fst kv)) ->
                  Forall2 (fun b part => forall kv, In kv part -> mentioned (snd b) (fst kv)) bs (map r (seq s (length bs)))).
        { induction bs as [|b l IH]; intros s X; simpl; constructor.
          - intros kv H. apply (X 0 b kv eq_refl). rewrite Nat.add_0_r. exact H.
          - apply IH. intros j c kv B H. apply (X (S j) c kv B). rewrite Nat.add_succ_r. exact H. }
        intro X. apply (G 0). exact X.
      + etransitivity; [|exact P]. apply distribution_perm; [exact L|]. intros j Hj. apply In_nth_error in Hj. destruct Hj as (i & Hi).
        clear - SD Hi. rewrite <- tables_length. revert i Hi. induction SD as [|x y v a XY F IH]; intros [|i] Hi; try discriminate; simpl in *.
        * injection Hi as ->. apply XY.
        * exact (IH i Hi).
    - intros p F PP.
      assert (LP : length bs = length p) by (clear - F; induction F; simpl; congruence).
      assert (NC : NoDup (concat p)) by (apply (Permutation_NoDup (Permutation_sym PP)); exact H_vs).
      set (a := map (fun kv => idx kv p) placed).
      assert (IP : forall kv, In kv placed <-> In kv (concat p)).
      { intro kv. split; intro H; [apply (Permutation_in _ (Permutation_sym PP)), (Permutation_in _ P)|
          apply (Permutation_in _ (Permutation_sym P)), (Permutation_in _ PP)]; exact H. }
      assert (NB : forall j part, nth_error p j = Some part -> exists b, nth_error bs j = Some b /\ all_matched eval T (snd b) part).
      { clear - F. induction F as [|b part0 l q X F IH]; intros [|j] part E; try discriminate; simpl in *; [injection E as <-; eauto|exact (IH j part E)]. }
      assert (RP : forall j part, nth_error p j = Some part -> Permutation part (received placed a j)).
      { intros j part E. apply NoDup_Permutation.
        - clear - NC E. revert j E. induction p as [|q p IH]; intros [|j] E; try discriminate; simpl in *; apply NoDup_app_elim in NC.
          + injection E as ->. apply NC.
          + apply (IH (proj1 (proj2 NC)) j E).
        - apply received_NoDup. exact NP.
        - intro kv. split.
          + intro H. assert (Hc : In kv (concat p)) by (apply in_concat; exists part; split; [exact (nth_error_In _ _ E)|exact H]).
            apply IP in Hc. apply In_nth_error in Hc. destruct Hc as (i & Hi). apply (In_received _ _ _ _ i Hi).
            unfold a. rewrite nth_error_map, Hi. simpl. f_equal. exact (HU kv p j part NC E H).
          + intro H. apply received_In in H. destruct H as (i & H1 & H2). unfold a in H2. rewrite nth_error_map, H1 in H2. simpl in H2.
            injection H2 as H2. destruct (HI kv p) as (part' & E' & I'); [apply IP; exact (nth_error_In _ _ H1)|]. rewrite H2, E in E'. injection E' as <-. exact I'. }
      exists (distribution placed (length bs) a). split.
      + apply in_map. apply CP.
        * unfold sends_to_mentioning, a. assert (X : forall kv, In kv placed -> idx kv p < length (tables_of bs) /\ mentions (tables_of bs) (idx kv p) (fst kv)).
          { intros kv H. destruct (HI kv p) as (part & E & I'); [apply IP; exact H|]. destruct (NB _ _ E) as (b & B & (cs & M & _)).
            rewrite tables_length. split; [apply nth_error_Some; congruence|]. apply mentions_bucket. exists b. split; [exact B|].
            apply In_nth_error in I'. destruct I' as (i & I'). clear - M I'. revert i I'. induction M as [|x c l cs X M IH]; intros [|i] I'; try discriminate; simpl in *.
            - injection I' as ->. exact (arc_matches_mentioned eval T (snd b) kv c X).
            - exact (IH i I'). }
          clear - X. induction placed as [|kv l IH]; simpl; constructor; [apply X; left; reflexivity|apply IH; intros; apply X; right; assumption].
        * intros j t Hj Ht. apply nth_tables in Ht. destruct Ht as (b & B & ->).
          assert (exists part, nth_error p j = Some part) as (part & E).
          { destruct (nth_error p j) eqn:E; [eauto|]. apply nth_error_None in E. rewrite <- LP in E. assert (j < length bs) by (apply nth_error_Some; congruence). lia. }
          destruct (NB j part E) as (b' & B' & M). rewrite B in B'. injection B' as <-.
          apply (all_matched_perm _ _ _ _ _ (RP j part E)) in M. destruct M as (cs & M & L).
          destruct (H_tables b (nth_error_In _ _ B)) as (_ & R & _ & _ & _ & NF & _).
          exists (rs_rbe (t_rbe (snd b))), cs. split; [exact R|]. split; [exact NF|]. split; [|exact L].
          clear - M. unfold assignment. induction M as [|x c l cs (cd & X & Y & _) M IH]; constructor; [exists cd; auto|exact IH].
      + assert (X : forall q s, (forall j part, nth_error q j = Some part -> Permutation part (received placed a (s + j))) ->
          Forall2 (@Permutation _) q (map (received placed a) (seq s (length q)))).
        { induction q as [|part q IH]; intros s X; simpl; constructor.
          - specialize (X 0 part eq_refl). rewrite Nat.add_0_r in X. exact X.
          - apply IH. intros j q0 E. specialize (X (S j) q0 E). rewrite Nat.add_succ_r in X. exact X. }
        unfold distribution. rewrite LP. apply (X p 0). exact RP.
  Qed.
End Part.
