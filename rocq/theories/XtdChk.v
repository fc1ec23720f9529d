(** One selection of alternatives is checked as it is meant. *)
From Coq Require Import List Arith Bool Lia Permutation.
Import ListNotations.
From Verif Require Import RbeModel RbeSpec RbeDeriv RbeFinal PendingModel TableModel TableSpec TableLemmas GraphModel GraphLemmas
  StepModel StepSpec ClassModel ClassSpec ClassFinal ExtModel ExtSpec ExtLemmas EngineModel EngineSpec EngineShape
  XtdModel XtdSpec XtdPart XtdRes XtdSel.

Lemma no_needs_no_ref c v : (forall v' r, ~ needs c v v' r) -> cond_has_ref c = true -> False.
Proof.
  induction c as [k|r|cs IH] using mcond_ind'; intros H R; [discriminate|exact (H v r (conj eq_refl eq_refl))|].
  cbn [cond_has_ref] in R. apply existsb_exists in R. destruct R as (c & Hc & R). rewrite Forall_forall in IH. apply (IH c Hc); [|exact R].
  intros v' r N. apply (H v' r). clear - Hc N. induction cs as [|d ds IHd]; [destruct Hc|]. simpl. destruct Hc as [->|Hc]; [left; exact N|right; apply IHd; exact Hc].
Qed.
Lemma combine_at {A} (R : A -> list (nat * nat) -> Prop) (bs : list A) p : Forall2 R bs p -> forall b part, In (b, part) (combine bs p) -> R b part.
Proof.
  induction 1 as [|b' part' bs p H F IH]; intros b part I; [destruct I|]. destruct I as [E|I]; [injection E as <- <-; exact H|exact (IH b part I)].
Qed.
Lemma at_combine bs : forall p, length bs = length p -> NoDup (map fst bs) -> forall l t, In (l, t) bs -> In ((l, t), part_at bs p l) (combine bs p).
Proof.
  induction bs as [|[l' t'] bs IH]; intros [|part p] L N l t Hl; try discriminate; [destruct Hl|]. simpl in N. inversion N as [|? ? Nl N']; subst.
  destruct Hl as [E|Hl].
  - injection E as -> ->. rewrite part_at_here. left. reflexivity.
  - rewrite part_at_there; [right; apply IH; simpl in L; auto|]. intros ->. apply Nl. apply (in_map fst) in Hl. exact Hl.
Qed.

Lemma F2_matched_perm eval T (bs : list (option nat * table)) p p' : Forall2 (fun b part => all_matched eval T (snd b) part) bs p ->
  Forall2 (@Permutation _) p p' -> Forall2 (fun b part => all_matched eval T (snd b) part) bs p'.
Proof.
  intro F. revert p'. induction F as [|b part bs p H F IH]; intros p' PP; inversion PP as [|? part' ? q P PP']; subst; constructor.
  - exact (all_matched_perm eval T _ _ _ P H).
  - apply IH. exact PP'.
Qed.

Section Chk.
  Variable eval : nat -> nat -> bool.
  Variable external : nat -> nat -> bool.
  Variable border : list (option nat * table) -> list (option nat * table).
  Variable corder : list class -> list class.
  Variable sch : schema.
  Variable g : rdf.
  Variable T : typing.
  Variable n : nat.
  Hypothesis H_g : NoDup g.
  Hypothesis H_border : forall l, Permutation (border l) l.
  Hypothesis H_corder : forall l, Permutation l (corder l).
  Notation TK := (fun k => T (node_of k) (label_of k)).
  Notation cons_check := (check_constraint eval external border corder sch g).

  Variable s : shape.
  Variable sigma : alternative.
  Variable B : list nat.
  Variable K : list (nat * list nat).
  Hypothesis H_rep : represents sigma B K.
  Hypothesis H_shapes : all_shapes sch B.
  Hypothesis H_within : scopes_within B K.
  Hypothesis H_own : exact_shape s.
  Hypothesis H_exact : forall b t, In b B -> find sch b = Some (EShape t) -> exact_shape t.
  Hypothesis H_readable : forall c S, In (c, S) K -> readable sch S c.
  Hypothesis H_scope : forall c S S', In (c, S) K -> In (c, S') K -> forall b, In b S <-> In b S'.

  Notation bs := (border (selection_buckets sch s sigma)).
  Notation preds := (selection_preds sch s sigma).

  Lemma NoDup_buckets : NoDup (a_buckets sigma).
  Proof. apply H_rep. Qed.
  Lemma In_buckets b : In b (a_buckets sigma) <-> In b B.
  Proof. apply H_rep. Qed.
  Lemma nodup_buckets : Permutation (a_buckets sigma) (nodup Nat.eq_dec B).
  Proof. apply NoDup_Permutation; [exact NoDup_buckets|apply NoDup_nodup|]. intro b. rewrite nodup_In. apply In_buckets. Qed.

  Lemma sel_labels : map fst (selection_buckets sch s sigma) = None :: map Some (a_buckets sigma).
  Proof.
    unfold selection_buckets. cbn [map fst]. f_equal. assert (X : forall b, In b (a_buckets sigma) -> exists t, find sch b = Some (EShape t))
      by (intros b Hb; apply H_shapes, In_buckets; exact Hb). revert X.
    generalize (a_buckets sigma) as l. intro l. induction l as [|b l IH]; intro X; [reflexivity|]. cbn [flat_map].
    destruct (X b (or_introl eq_refl)) as (t & ->). simpl. f_equal. apply IH. intros c Hc. apply X. right. exact Hc.
  Qed.
  Lemma bs_labels : Permutation (map fst bs) (None :: map Some (a_buckets sigma)).
  Proof. rewrite <- sel_labels. apply Permutation_map, H_border. Qed.
  Lemma bs_NoDup : NoDup (map fst bs).
  Proof.
    apply (Permutation_NoDup (Permutation_sym bs_labels)). constructor.
    - intro H. apply in_map_iff in H. destruct H as (x & E & _). discriminate.
    - apply FinFun.Injective_map_NoDup; [intros x y E; injection E as ->; reflexivity|exact NoDup_buckets].
  Qed.
  Lemma bs_In l t : In (l, t) bs <-> (l = None /\ t = s_table s) \/ exists b, l = Some b /\ In b B /\ takes sch b t.
  Proof.
    split.
    - intro H. apply (Permutation_in _ (H_border _)) in H. destruct H as [E|H]; [injection E as <- <-; left; auto|right].
      apply in_flat_map in H. destruct H as (b & Hb & H). apply In_buckets in Hb. exists b. destruct (find sch b) as [[]|] eqn:F; try solve [destruct H].
      destruct H as [E|[]]. injection E as <- <-. split; [reflexivity|]. split; [exact Hb|exists s0; auto].
    - intro H. apply (Permutation_in _ (Permutation_sym (H_border _))). destruct H as [[-> ->]|(b & -> & Hb & s0 & F & <-)]; [left; reflexivity|right].
      apply in_flat_map. exists b. split; [apply In_buckets; exact Hb|]. rewrite F. left. reflexivity.
  Qed.
  Lemma bs_exact l t : In (l, t) bs -> table_for t (rs_rbe (t_rbe t)) /\ (one_per_predicate t \/ ~ lang (rs_rbe (t_rbe t)) bzero).
  Proof.
    intro H. apply bs_In in H. destruct H as [[_ ->]|(b & _ & Hb & s0 & F & <-)].
    - destruct H_own as (X & Y & _). auto.
    - destruct (H_exact b s0 Hb F) as (X & Y & _). auto.
  Qed.
  Lemma mention_bs k : some_mention sch s B k <-> exists l t, In (l, t) bs /\ mentioned t k.
  Proof.
    unfold some_mention. split.
    - intros [H|(b & t & Hb & Ht & H)]; [exists None, (s_table s)|exists (Some b), t]; (split; [apply bs_In|exact H]); [left; auto|right; exists b; auto].
    - intros (l & t & Hl & H). apply bs_In in Hl. destruct Hl as [[_ ->]|(b & _ & Hb & Ht)]; [left; exact H|right; exists b, t; auto].
  Qed.
  Lemma preds_In k : In k preds <-> some_mention sch s B k \/ In k (s_extra s).
  Proof.
    unfold selection_preds. rewrite push_all_In. destruct H_own as (_ & _ & P).
    assert (X : forall l acc, In k (fold_left (fun acc b => match find sch b with Some (EShape t) => push_all acc (s_preds t) | _ => acc end) l acc) <->
      In k acc \/ exists b t, In b l /\ find sch b = Some (EShape t) /\ In k (s_preds t)).
    { induction l as [|b l IH]; intro acc; cbn [fold_left]; [split; [auto|intros [H|(b & t & [] & _)]; exact H]|].
      rewrite IH. split.
      - intros [H|(b' & t & H1 & H2 & H3)]; [|right; exists b', t; split; [right; exact H1|auto]].
        destruct (find sch b) as [[]|] eqn:F; try (left; exact H). apply push_all_In in H. destruct H as [H|H]; [left; exact H|right].
        exists b, s0. split; [left; reflexivity|auto].
      - intros [H|(b' & t & [<-|H1] & H2 & H3)].
        + left. destruct (find sch b) as [[]|]; try exact H. apply push_all_In. left. exact H.
        + left. rewrite H2. apply push_all_In. right. exact H3.
        + right. exists b', t. auto. }
    rewrite X, P. unfold some_mention. split.
    - intros [[H|(b & t & Hb & F & H)]|H]; [left; left; exact H|left; right|right; exact H].
      apply In_buckets in Hb. exists b, (s_table t). split; [exact Hb|]. split; [exists t; auto|]. apply (H_exact b t Hb F). exact H.
    - intros [[H|(b & t & Hb & (t' & F & <-) & H)]|H]; [left; left; exact H|left; right|right; exact H].
      exists b, t'. split; [apply In_buckets; exact Hb|]. split; [exact F|]. apply (H_exact b t' Hb F). exact H.
  Qed.
  Lemma leaf_spec k v : some_leaf eval bs (k, v) = true <->
    exists l t c cd, In (l, t) bs /\ component t c k cd /\ (satisfies eval cd v \/ exists v0 v' r, needs cd v0 v' r).
  Proof.
    unfold some_leaf. rewrite existsb_exists. split.
    - intros ([l t] & H & L). apply any_leaf_spec in L. destruct L as (c & cd & C & L). exists l, t, c, cd. auto.
    - intros (l & t & c & cd & H & C & L). exists (l, t). split; [exact H|]. apply any_leaf_spec. exists c, cd. auto.
  Qed.

  Notation values := (fst (neighs n preds g)).
  Notation kept := (filter (fun kv => some_leaf eval bs kv || negb (RbeModel.mem (fst kv) (s_extra s))) values).
  Lemma kept_NoDup : NoDup kept.
  Proof. apply NoDup_filter, neighs_NoDup. exact H_g. Qed.
  Lemma extra_mem k : negb (RbeModel.mem k (s_extra s)) = true <-> ~ In k (s_extra s).
  Proof.
    rewrite negb_true_iff. split.
    - intros H I. apply (proj2 (mem_In _ _)) in I. unfold mem in I. unfold RbeModel.mem in H. congruence.
    - intro H. destruct (RbeModel.mem k (s_extra s)) eqn:E; [|reflexivity]. apply (proj1 (mem_In k (s_extra s))) in E. contradiction.
  Qed.
  Lemma kept_mentioned kv : In kv kept -> exists b, In b bs /\ mentioned (snd b) (fst kv).
  Proof.
    intro H. apply filter_In in H. destruct H as [H L]. destruct kv as [k v]. apply neighs_In in H. destruct H as [P _].
    assert (M : some_mention sch s B k).
    { apply orb_true_iff in L. destruct L as [L|L].
      - apply leaf_spec in L. destruct L as (l & t & c & cd & Hl & C & _). apply mention_bs. exists l, t. split; [exact Hl|exists c, cd; exact C].
      - apply extra_mem in L. apply preds_In in P. destruct P as [P|P]; [exact P|contradiction]. }
    apply mention_bs in M. destruct M as (l & t & Hl & M). exists (l, t). auto.
  Qed.
  Lemma bs_tables b : In b bs -> table_for (snd b) (rs_rbe (t_rbe (snd b))).
  Proof. destruct b as [l t]. intro H. apply (bs_exact l t H). Qed.

  (** the parts of a distribution over the buckets *)
  Lemma parts_perm p : length bs = length p ->
    Permutation (concat p) (part_at bs p None ++ shares (fun b => part_at bs p (Some b)) B).
  Proof.
    intro L. rewrite (concat_at bs p L bs_NoDup). rewrite (Permutation_flat_map (part_at bs p) bs_labels). cbn [flat_map].
    apply Permutation_app_head. unfold shares. rewrite <- nodup_buckets. rewrite flat_map_concat_map, map_map, <- flat_map_concat_map. reflexivity.
  Qed.

  Lemma scoped_in c S : In (c, S) K -> exists x, In x (a_constraints sigma) /\ sc_expr x = c /\ NoDup (sc_scope x) /\ forall b, In b (sc_scope x) <-> In b S.
  Proof.
    intro H. destruct H_rep as ((_ & _ & N) & _ & HC & HS).
    assert (X : In c (map sc_expr (a_constraints sigma))) by (apply HC; apply (in_map fst) in H; exact H).
    apply in_map_iff in X. destruct X as (x & <- & Hx). exists x. split; [exact Hx|]. split; [reflexivity|]. split; [exact (N x Hx)|].
    intro b. rewrite (HS x Hx b). split.
    - intros (S' & H' & Hb). apply (H_scope _ _ _ H' H). exact Hb.
    - intro Hb. exists S. auto.
  Qed.
  Lemma scoped_of x : In x (a_constraints sigma) -> exists S, In (sc_expr x, S) K /\ NoDup (sc_scope x) /\ forall b, In b (sc_scope x) <-> In b S.
  Proof.
    intro Hx. destruct H_rep as ((_ & _ & N) & _ & HC & HS). assert (X : In (sc_expr x) (map fst K)) by (apply HC, in_map; exact Hx).
    apply in_map_iff in X. destruct X as ([c S] & E & H). cbn [fst] in E. subst c. exists S. split; [exact H|]. split; [exact (N x Hx)|].
    intro b. rewrite (HS x Hx b). split.
    - intros (S' & H' & Hb). apply (H_scope _ _ _ H' H). exact Hb.
    - intro Hb. exists S. auto.
  Qed.
  Lemma shares_scope part (S l : list nat) : NoDup l -> (forall b, In b l <-> In b S) -> Permutation (flat_map part l) (shares part S).
  Proof.
    intros N H. unfold shares. apply Permutation_flat_map. apply NoDup_Permutation; [exact N|apply NoDup_nodup|]. intro b. rewrite nodup_In. apply H.
  Qed.
  Lemma readable_scoped x : In x (a_constraints sigma) -> readable sch (sc_scope x) (sc_expr x).
  Proof.
    intro Hx. destruct (scoped_of x Hx) as (S & HK & _ & E). destruct (H_readable _ _ HK) as [J|Ti]; [left; exact J|right].
    revert Ti. generalize (sc_expr x) as c. induction 1 as [i cd F|i t F X EX Z M|i j F Tj IH|i es F Te IH].
    - eapply tight_node. exact F.
    - eapply tight_shape; try eassumption. intros k (b & t' & Hb & H). apply M. exists b, t'. split; [apply E; exact Hb|exact H].
    - eapply tight_ref; eassumption.
    - eapply tight_and; eassumption.
  Qed.

  Lemma can_match_parts t part : table_for t (rs_rbe (t_rbe t)) -> all_matched eval T t part -> can_match eval t part.
  Proof.
    intros U (cs & F & L). exists (rs_rbe (t_rbe t)), cs. destruct U as (_ & R & _ & _ & _ & NF & _). split; [exact R|]. split; [exact NF|].
    split; [|exact L]. clear - F. induction F as [|kv c vs cs (cd & C & S & _) F IH]; constructor; [exists cd; auto|exact IH].
  Qed.

  Lemma check_parts l t part : In (l, t) bs -> (forall kv, In kv part -> mentioned t (fst kv)) ->
    (check_expr_neigh eval t part TK = true <-> all_matched eval T t part).
  Proof. intros H M. destruct (bs_exact l t H) as [U O]. exact (check_expr_neigh_spec eval T t _ part U O M). Qed.

  Lemma matched_mentioned t part : all_matched eval T t part -> forall kv, In kv part -> mentioned t (fst kv).
  Proof. intros A kv H. destruct (all_match_arc eval T t part A kv H) as (c & M). exact (arc_matches_mentioned eval T t kv c M). Qed.

  Theorem selection_spec f b :
    check_selection eval border corder sch g f (fun i => cons_check f n i TK) n s sigma TK = Some b ->
    (b = true <-> shared_out eval external sch g T n s B K).
  Proof.
    unfold check_selection. pose proof (neighs_In n preds g) as VI. pose proof (reminder_In n preds g) as RI.
    pose proof kept_NoDup as KN. pose proof kept_mentioned as KM.
    destruct (neighs n preds g) as [vals rem]. cbn [fst snd] in *.
    set (keep := fun kv : nat * nat => some_leaf eval bs kv || negb (RbeModel.mem (fst kv) (s_extra s))) in *.
    set (vs := filter keep vals) in *.
    (* from a sharing to what the check computes *)
    assert (BACK : shared_out eval external sch g T n s B K ->
      (s_closed s && negb (no_one rem) = false) /\
      exists p, Forall2 (fun b part => all_matched eval T (snd b) part) bs p /\ Permutation (concat p) vs /\
        forall x, In x (a_constraints sigma) ->
          (forall kv, In kv (flat_map (allocated bs p) (sc_scope x)) -> exists b t, In b (sc_scope x) /\ takes sch b t /\ mentioned t (fst kv)) /\
          constraint_holds eval external sch g T n (flat_map (allocated bs p) (sc_scope x)) (sc_expr x)).
    { intros (own & part & rest & NB & AO & AP & RST & CON). destruct NB as [NN NB].
      assert (MS : forall kv, In kv (own ++ shares part B) -> exists l t c, In (l, t) bs /\ arc_matches eval T t kv c).
      { intros kv H. apply in_app_iff in H. destruct H as [H|H].
        - destruct (all_match_arc _ _ _ _ AO kv H) as (c & M). exists None, (s_table s), c. split; [apply bs_In; left; auto|exact M].
        - unfold shares in H. apply in_flat_map in H. destruct H as (b' & Hb & H). apply nodup_In in Hb.
          destruct (H_shapes b' Hb) as (t & F). assert (TK' : takes sch b' (s_table t)) by (exists t; auto).
          destruct (all_match_arc _ _ _ _ (AP b' _ Hb TK') kv H) as (c & M). exists (Some b'), (s_table t), c. split; [|exact M].
          apply bs_In. right. exists b'. auto. }
      assert (MM : forall k v, In (k, v) (own ++ shares part B) -> some_mention sch s B k).
      { intros k v H. destruct (MS _ H) as (l & t & c & Hl & cd & C & _). apply mention_bs. exists l, t. split; [exact Hl|exists c, cd; exact C]. }
      split.
      { destruct (s_closed s) eqn:CL; [|reflexivity]. cbn [andb]. apply negb_false_iff. destruct rem as [|p rem']; [reflexivity|exfalso].
        destruct (proj1 (RI p) (or_introl eq_refl)) as (NP & v & Hv).
        assert (IA : In (direct p, v) (own ++ shares part B ++ rest)) by (apply NB; exists p; left; auto).
        rewrite app_assoc in IA. apply in_app_iff in IA. destruct IA as [IA|IA].
        - apply NP, preds_In. left. exact (MM _ _ IA).
        - destruct (RST _ _ IA) as [R1 R2]. apply NP, preds_In. right. apply R2; [|apply is_direct_direct|reflexivity].
          intro M. apply NP, preds_In. left. exact M. }
      set (f0 := fun l : option nat => match l with None => own | Some b' => part b' end).
      exists (map f0 (map fst bs)). split; [|split].
      - assert (X : forall l, (forall b', In b' l -> In b' bs) -> Forall2 (fun b' part => all_matched eval T (snd b') part) l (map f0 (map fst l))).
        { induction l as [|[lb t] l IH]; intro H; constructor; [|apply IH; intros b' Hb; apply H; right; exact Hb]. cbn [snd fst].
          pose proof (H (lb, t) (or_introl eq_refl)) as HB. apply bs_In in HB. destruct HB as [[-> ->]|(b' & -> & Hb & Ht)]; [exact AO|exact (AP b' t Hb Ht)]. }
        apply X. auto.
      - assert (P1 : Permutation (concat (map f0 (map fst bs))) (own ++ shares part B)).
        { rewrite <- flat_map_concat_map. rewrite (Permutation_flat_map f0 bs_labels). cbn [flat_map]. apply Permutation_app_head.
          unfold shares. rewrite <- nodup_buckets. rewrite flat_map_concat_map, map_map, <- flat_map_concat_map. reflexivity. }
        rewrite P1. apply NoDup_Permutation.
        + rewrite app_assoc in NN. apply NoDup_app_elim in NN. apply NN.
        + exact KN.
        + intros [k v]. unfold vs. rewrite filter_In, VI. split.
          * intro H. assert (IA : In (k, v) (own ++ shares part B ++ rest)) by (rewrite app_assoc; apply in_app_iff; left; exact H).
            apply NB in IA. split; [split; [apply preds_In; left; exact (MM _ _ H)|exact IA]|]. unfold keep. apply orb_true_iff. left.
            apply leaf_spec. destruct (MS _ H) as (l & t & c & Hl & cd & C & SA & _). exists l, t, c, cd. auto.
          * intros [[P H] L]. apply NB in H. rewrite app_assoc in H. apply in_app_iff in H. destruct H as [H|H]; [exact H|exfalso].
            destruct (RST _ _ H) as [R1 R2]. unfold keep in L. apply orb_true_iff in L. destruct L as [L|L].
            -- apply leaf_spec in L. destruct L as (l & t & c & cd & Hl & C & L).
               assert (M : some_mention sch s B k) by (apply mention_bs; exists l, t; split; [exact Hl|exists c, cd; exact C]).
               destruct (R1 M) as [_ R3]. assert (Y : t = s_table s \/ exists b', In b' B /\ takes sch b' t).
               { apply bs_In in Hl. destruct Hl as [[_ ->]|(b' & _ & Hb & Ht)]; [left; reflexivity|right; exists b'; auto]. }
               destruct (R3 t c cd Y C) as [Z1 Z2]. destruct L as [L|L]; [exact (Z1 L)|].
               assert (Z3 : cond_has_ref cd = true) by (apply has_ref_needs; exact L). revert Z2 Z3. clear.
               intros Z2 Z3. exact (no_needs_no_ref cd v Z2 Z3).
            -- apply extra_mem in L. apply preds_In in P. destruct P as [P|P]; [|exact (L P)]. apply L. apply R1. exact P.
      - intros x Hx. destruct (scoped_of x Hx) as (S & HK & NS & ES).
        assert (EQ : flat_map (allocated bs (map f0 (map fst bs))) (sc_scope x) = flat_map part (sc_scope x)).
        { assert (W : forall b', In b' (sc_scope x) -> In b' B) by (intros b' Hb; apply (H_within _ _ HK), ES; exact Hb). revert W.
          generalize (sc_scope x) as l. intro l. induction l as [|b' l IH]; intro W; [reflexivity|]. cbn [flat_map]. f_equal.
          - rewrite allocated_at, at_map; [reflexivity|exact bs_NoDup|]. apply (Permutation_in _ (Permutation_sym bs_labels)). right.
            apply in_map, In_buckets, W. left. reflexivity.
          - apply IH. intros b'' Hb. apply W. right. exact Hb. }
        rewrite EQ. split.
        + intros kv H. apply in_flat_map in H. destruct H as (b' & Hb & H). assert (HB : In b' B) by (apply (H_within _ _ HK), ES; exact Hb).
          destruct (H_shapes b' HB) as (t & F). assert (TK' : takes sch b' (s_table t)) by (exists t; auto).
          exists b', (s_table t). split; [exact Hb|]. split; [exact TK'|]. exact (matched_mentioned _ _ (AP b' _ HB TK') kv H).
        + apply (constraint_perm eval external sch g T n _ (shares part S)); [symmetry; apply shares_scope; assumption|]. exact (CON _ _ HK). }
    destruct (s_closed s && negb (no_one rem)) eqn:CL.
    { intro H. injection H as <-. split; [discriminate|]. intro SO. apply BACK in SO. destruct SO as [SO _]. discriminate. }
    destruct (forallb (fun b0 : option nat * table => feasible_neighs eval (snd b0) vs) bs) eqn:FE; cbn [negb].
    2:{ intro H. injection H as <-. split; [discriminate|]. intro SO. apply BACK in SO. destruct SO as [_ (p & F & P & _)].
        exfalso. assert (X : forallb (fun b0 : option nat * table => feasible_neighs eval (snd b0) vs) bs = true); [|congruence].
        apply forallb_forall. intros [l t] Hb. cbn [snd]. destruct (bs_exact l t Hb) as [U _]. pose proof (F2_at bs p F bs_NoDup l t Hb) as A. cbn [snd] in A.
        assert (L : length bs = length p) by exact (F2_len _ _ _ F).
        assert (IP : exists l1 l2, p = l1 ++ part_at bs p l :: l2).
        { apply in_split. clear - F Hb. induction F as [|[l' t'] part bs' p H F IH]; [destruct Hb|]. cbn [part_at].
          destruct (match l, l' with Some b, Some b' => Nat.eqb b b' | None, None => true | _, _ => false end) eqn:E; [left; reflexivity|right].
          destruct Hb as [Hb|Hb]; [|exact (IH Hb)]. injection Hb as -> ->. destruct l; [rewrite Nat.eqb_refl in E|]; discriminate. }
        destruct IP as (l1 & l2 & IP). revert IP A. generalize (part_at bs p l) as q. intros q IP A.
        apply (can_match_feasible eval t q (concat l1 ++ concat l2) vs); [apply U|apply can_match_parts; assumption|].
        rewrite <- P, IP, concat_app. cbn [concat]. rewrite !app_assoc. apply Permutation_app_tail. apply Permutation_app_comm. }
    destruct (split_constraints eval sch f (fun i => cons_check f n i TK) n (a_constraints sigma)) as [r|] eqn:SC; [|discriminate].
    destruct r as [cs|].
    2:{ intro H. injection H as <-. split; [discriminate|]. intro SO. apply BACK in SO. destruct SO as [_ (p & F & P & C)].
        pose proof (split_constraints_spec eval external border corder sch g T n H_g f f (flat_map (allocated bs p)) _ _ readable_scoped (fun x Hx => proj1 (C x Hx)) SC) as X.
        cbn beta iota in X. destruct X as (x & Hx & NX). exfalso. exact (NX (proj2 (C x Hx))). }
    destruct (partitions eval corder f bs vs) as [ps|] eqn:PT; [|discriminate]. intro H. injection H as <-.
    destruct (partitions_spec eval corder H_corder T bs vs bs_tables KN KM f ps PT) as [PS1 PS2].
    rewrite existsb_exists. split.
    - intros (p & Hp & OK). destruct (PS1 p Hp) as [FM PP]. unfold partition_ok in OK. apply andb_true_iff in OK. destruct OK as [OK1 OK2].
      assert (L : length bs = length p) by exact (F2_len _ _ _ FM).
      assert (ALLM : forall l t, In (l, t) bs -> all_matched eval T t (part_at bs p l)).
      { intros l t Hl. apply (check_parts l t _ Hl).
        - intros kv Hkv. exact (F2_at bs p FM bs_NoDup l t Hl kv Hkv).
        - rewrite forallb_forall in OK1. exact (OK1 _ (at_combine bs p L bs_NoDup l t Hl)). }
      set (N := fst (neighs n (all_preds g) g)). destruct (neighbourhood_neighs g n H_g) as [NN NI]. fold N in NN, NI.
      set (outside := fun kv : nat * nat => if in_dec pair_dec kv vs then false else true).
      assert (RI' : forall kv, In kv (filter outside N) <-> In kv N /\ ~ In kv vs).
      { intro kv. rewrite filter_In. unfold outside. destruct (in_dec pair_dec kv vs); intuition discriminate. }
      assert (VN : forall kv, In kv vs -> In kv N).
      { intros [k v] Hv. apply filter_In in Hv. destruct Hv as [Hv _]. apply VI in Hv. apply NI. apply Hv. }
      exists (part_at bs p None), (fun b' => part_at bs p (Some b')), (filter outside N).
      split; [|split; [|split; [|split]]].
      + apply (neighbourhood_perm g n N); [|split; assumption].
        rewrite app_assoc. rewrite <- (parts_perm p L). rewrite PP. apply NoDup_Permutation; [exact NN| |].
        * apply NoDup_app_intro; [exact KN|apply NoDup_filter; exact NN|]. intros kv H1 H2. apply RI' in H2. apply H2. exact H1.
        * intro kv. rewrite in_app_iff, RI'. destruct (in_dec pair_dec kv vs) as [I|I]; [|tauto]. split; [auto|intros _; apply VN; exact I].
      + apply ALLM. apply bs_In. left. auto.
      + intros b' t Hb Ht. apply ALLM. apply bs_In. right. exists b'. auto.
      + intros k v H. apply RI' in H. destruct H as [HN HV]. split.
        * intro M. assert (IV : In (k, v) vals) by (apply VI; split; [apply preds_In; left; exact M|apply NI; exact HN]).
          assert (KF : keep (k, v) = false).
          { destruct (keep (k, v)) eqn:E; [|reflexivity]. exfalso. apply HV. apply filter_In. auto. }
          unfold keep in KF. apply orb_false_iff in KF. destruct KF as [K1 K2]. cbn [fst] in K2. split.
          -- apply negb_false_iff in K2. apply (mem_In k (s_extra s)). exact K2.
          -- intros t c cd Y C. assert (HL : exists l, In (l, t) bs).
             { destruct Y as [->|(b' & Hb & Ht)]; [exists None; apply bs_In; left; auto|exists (Some b'); apply bs_In; right; exists b'; auto]. }
             destruct HL as (l & HL). split.
             ++ intro SA. assert (X : some_leaf eval bs (k, v) = true); [|congruence]. apply leaf_spec. exists l, t, c, cd. auto.
             ++ intros v' r NE. assert (X : some_leaf eval bs (k, v) = true); [|congruence]. apply leaf_spec. exists l, t, c, cd.
                split; [exact HL|]. split; [exact C|]. right. eauto.
        * intros NM D CLS. rewrite CLS in CL. cbn [andb] in CL. apply negb_false_iff in CL. destruct rem as [|p0 rem']; [|discriminate].
          apply NI in HN. destruct HN as (p0 & [[-> HN]|[-> _]]); [|rewrite is_direct_inverse in D; discriminate].
          assert (X : In (direct p0) preds).
          { destruct (in_dec Nat.eq_dec (direct p0) preds) as [X|X]; [exact X|exfalso]. destruct (proj2 (RI p0)). eauto. }
          apply preds_In in X. destruct X as [X|X]; [contradiction|exact X].
      + assert (SPR : forall x, In x (a_constraints sigma) -> forall kv, In kv (flat_map (allocated bs p) (sc_scope x)) ->
          exists b' t, In b' (sc_scope x) /\ takes sch b' t /\ mentioned t (fst kv)).
        { intros x Hx kv H. destruct (scoped_of x Hx) as (S & HK & NS & ES). apply in_flat_map in H. destruct H as (b' & Hb & H).
          assert (HB : In b' B) by (apply (H_within _ _ HK), ES; exact Hb). destruct (H_shapes b' HB) as (t & F).
          assert (TK' : takes sch b' (s_table t)) by (exists t; auto). exists b', (s_table t). split; [exact Hb|]. split; [exact TK'|].
          rewrite allocated_at in H. apply (matched_mentioned _ _ (ALLM (Some b') (s_table t) ltac:(apply bs_In; right; exists b'; auto)) kv H). }
        pose proof (split_constraints_spec eval external border corder sch g T n H_g f f (flat_map (allocated bs p)) _ _ readable_scoped SPR SC) as X.
        cbn beta iota in X. intros c S HK. destruct (scoped_in c S HK) as (x & Hx & <- & NS & ES).
        apply (constraint_perm eval external sch g T n _ (flat_map (allocated bs p) (sc_scope x))); [|apply X; assumption].
        transitivity (flat_map (fun b' => part_at bs p (Some b')) (sc_scope x)); [|apply shares_scope; assumption].
        apply flat_map_perm_ext. intros b' _. rewrite allocated_at. reflexivity.
    - intro SO. apply BACK in SO. destruct SO as [_ (p & F & P & C)]. destruct (PS2 p F P) as (p' & Hp' & PP). exists p'. split; [exact Hp'|].
      assert (F' : Forall2 (fun b part => all_matched eval T (snd b) part) bs p').
      { exact (F2_matched_perm eval T bs p p' F PP). }
      assert (AL : forall x, Permutation (flat_map (allocated bs p) (sc_scope x)) (flat_map (allocated bs p') (sc_scope x))).
      { intro x. apply flat_map_perm_ext. intros b' _. rewrite !allocated_at. apply F2_perm_at. exact PP. }
      unfold partition_ok. apply andb_true_iff. split.
      + apply forallb_forall. intros [[l t] part] H. cbn [fst snd]. pose proof (combine_at _ bs p' F' _ _ H) as A. cbn [snd] in A.
        apply (check_parts l t part); [exact (in_combine_l _ _ _ _ H)|exact (matched_mentioned t part A)|exact A].
      + assert (SPR : forall x, In x (a_constraints sigma) -> forall kv, In kv (flat_map (allocated bs p') (sc_scope x)) ->
          exists b' t, In b' (sc_scope x) /\ takes sch b' t /\ mentioned t (fst kv)).
        { intros x Hx kv H. apply (proj1 (C x Hx)). exact (Permutation_in _ (Permutation_sym (AL x)) H). }
        pose proof (split_constraints_spec eval external border corder sch g T n H_g f f (flat_map (allocated bs p')) _ _ readable_scoped SPR SC) as X.
        cbn beta iota in X. apply X. intros x Hx. exact (constraint_perm eval external sch g T n _ _ _ (AL x) (proj2 (C x Hx))).
  Qed.

  Theorem selection_total : exists f0, forall f, f0 <= f -> exists b,
    check_selection eval border corder sch g f (fun i => cons_check f n i TK) n s sigma TK = Some b.
  Proof.
    destruct (split_constraints_total eval external border corder sch g T n (a_constraints sigma) readable_scoped) as (f1 & H1).
    destruct (partitions_total eval corder H_corder bs kept bs_tables) as (f2 & ps & H2).
    exists (f1 + f2). intros f L. unfold check_selection. destruct (H1 f ltac:(lia)) as (r & R). specialize (H2 f ltac:(lia)).
    destruct (neighs n preds g) as [vals rem]. cbn [fst] in H2.
    destruct (s_closed s && negb (no_one rem)); [eauto|].
    destruct (negb (forallb (fun b : option nat * table => feasible_neighs eval (snd b)
      (filter (fun kv => some_leaf eval bs kv || negb (RbeModel.mem (fst kv) (s_extra s))) vals)) bs)); [eauto|].
    rewrite R. destruct r as [cs|]; [|eauto]. rewrite H2. eauto.
  Qed.
End Chk.
