(** The check of one selection of alternatives. *)
From Coq Require Import List Arith Bool Lia Permutation.
Import ListNotations.
From Verif Require Import RbeModel RbeSpec RbeDeriv PendingModel TableModel TableSpec TableLemmas GraphModel GraphLemmas
  StepModel StepSpec ClassModel ClassSpec ClassFinal ExtModel ExtSpec ExtLemmas EngineModel EngineSpec EngineShape
  XtdModel XtdSpec XtdPart XtdRes.

Scheme resolves_mut := Minimality for resolves Sort Prop with resolves_all_mut := Minimality for resolves_all Sort Prop.
Combined Scheme resolves_both from resolves_mut, resolves_all_mut.

Definition scopes_within (B : list nat) (K : list (nat * list nat)) : Prop := forall c S, In (c, S) K -> incl S B.
Definition all_shapes (sch : schema) (B : list nat) : Prop := forall b, In b B -> exists t, find sch b = Some (EShape t).

Lemma resolves_facts sch :
  (forall i B K, resolves sch i B K -> all_shapes sch B /\ scopes_within B K) /\
  (forall is B K, resolves_all sch is B K -> all_shapes sch B /\ scopes_within B K).
Proof.
  apply resolves_both; intros.
  - assumption.
  - destruct H1 as [A W]. split.
    + intros b [<-|Hb]; [eauto|exact (A b Hb)].
    + intros c S' H' b Hb. right. exact (W c S' H' b Hb).
  - assumption.
  - destruct H4 as [A W]. split; [exact A|]. intros c S' H' b Hb. apply in_app_iff in H'. destruct H' as [H'|H']; [exact (W c S' H' b Hb)|].
    apply in_map_iff in H'. destruct H' as (x & E & _). injection E as _ <-. exact Hb.
  - split; [intros b []|]. intros c S' H' b Hb. apply in_map_iff in H'. destruct H' as (x & E & _). injection E as _ <-. destruct Hb.
  - split; [intros b []|]. intros c' S' [E|[]] b Hb. injection E as _ <-. destruct Hb.
  - split; [intros b []|]. intros c' S' [E|[]] b Hb. injection E as _ <-. destruct Hb.
  - split; [intros b []|]. intros c' S' [E|[]] b Hb. injection E as _ <-. destruct Hb.
  - split; [intros b []|intros c S' []].
  - split; [intros b []|intros c S' []].
  - split; [intros b []|intros c S' []].
  - destruct H0 as [A W], H2 as [A' W']. split.
    + intros b Hb. apply in_app_iff in Hb. destruct Hb; auto.
    + intros c S' H' b Hb. apply in_app_iff. apply in_app_iff in H'. destruct H' as [H'|H']; [left|right].
      * exact (W c S' H' b Hb).
      * exact (W' c S' H' b Hb).
Qed.

(** ** parts by label *)
Fixpoint part_at (bs : list (option nat * table)) (p : list (list (nat * nat))) (l : option nat) : list (nat * nat) :=
  match bs, p with
  | (l', _) :: bs, part :: p =>
      if match l, l' with Some b, Some b' => Nat.eqb b b' | None, None => true | _, _ => false end then part else part_at bs p l
  | _, _ => []
  end.
Lemma part_at_here l t bs part p : part_at ((l, t) :: bs) (part :: p) l = part.
Proof. simpl. destruct l; [rewrite Nat.eqb_refl|]; reflexivity. Qed.
Lemma part_at_there l l' t bs part p : l <> l' -> part_at ((l', t) :: bs) (part :: p) l = part_at bs p l.
Proof.
  intro N. simpl. destruct l as [b|], l' as [b'|]; try reflexivity; [|congruence]. destruct (Nat.eqb_spec b b'); [congruence|reflexivity].
Qed.
Lemma allocated_at bs : forall p b, allocated bs p b = part_at bs p (Some b).
Proof. induction bs as [|[[b'|] t] bs IH]; intros [|part p] b; simpl; try reflexivity; [rewrite IH; reflexivity|apply IH]. Qed.

Lemma F2_at {R : option nat * table -> list (nat * nat) -> Prop} bs p : Forall2 R bs p -> NoDup (map fst bs) ->
  forall l t, In (l, t) bs -> R (l, t) (part_at bs p l).
Proof.
  induction 1 as [|[l' t'] part bs p H F IH]; intros N l t Hl; [destruct Hl|]. simpl in N. inversion N as [|? ? Nl N']; subst.
  destruct Hl as [E|Hl].
  - injection E as -> ->. rewrite part_at_here. exact H.
  - rewrite part_at_there; [exact (IH N' l t Hl)|]. intros ->. apply Nl. apply (in_map fst) in Hl. exact Hl.
Qed.
Lemma concat_at bs : forall p, length bs = length p -> NoDup (map fst bs) -> concat p = flat_map (part_at bs p) (map fst bs).
Proof.
  induction bs as [|[l t] bs IH]; intros [|part p] L N; try discriminate; [reflexivity|]. simpl in N. inversion N as [|? ? Nl N']; subst.
  cbn [map fst flat_map concat]. rewrite part_at_here. f_equal. rewrite (IH p) by (simpl in L; auto).
  clear - Nl. induction (map fst bs) as [|m ms IHm]; [reflexivity|]. cbn [flat_map].
  rewrite part_at_there by (intros ->; apply Nl; left; reflexivity). f_equal. apply IHm. intro H. apply Nl. right. exact H.
Qed.
Lemma at_map f bs : NoDup (map fst bs) -> forall l, In l (map fst bs) -> part_at bs (map f (map fst bs)) l = f l.
Proof.
  induction bs as [|[l' t] bs IH]; intros N l Hl; [destruct Hl|]. simpl in N. inversion N as [|? ? Nl N']; subst. cbn [map fst] in *.
  destruct Hl as [<-|Hl]; [apply part_at_here|]. rewrite part_at_there by congruence. exact (IH N' l Hl).
Qed.
Lemma F2_len {A B} (R : A -> B -> Prop) a b : Forall2 R a b -> length a = length b.
Proof. induction 1; simpl; auto. Qed.
Lemma F2_perm_at bs : forall p p', Forall2 (@Permutation (nat * nat)) p p' -> forall l, Permutation (part_at bs p l) (part_at bs p' l).
Proof.
  induction bs as [|[l' t] bs IH]; intros p p' F l; [destruct p, p'; reflexivity|].
  destruct F as [|part part' p p' P F]; [reflexivity|]. simpl.
  destruct (match l, l' with Some b, Some b' => Nat.eqb b b' | None, None => true | _, _ => false end); [exact P|apply IH; exact F].
Qed.
Lemma flat_map_perm_ext {A B} (f h : A -> list B) l : (forall x, In x l -> Permutation (f x) (h x)) -> Permutation (flat_map f l) (flat_map h l).
Proof.
  induction l as [|x l IH]; intro H; [constructor|]. simpl. apply Permutation_app; [apply H; left; reflexivity|]. apply IH. intros y Hy. apply H. right. exact Hy.
Qed.

Lemma push_all_In more : forall l x, In x (push_all l more) <-> In x l \/ In x more.
Proof.
  induction more as [|y more IH]; intros l x; cbn [push_all fold_left]; [simpl; tauto|].
  change (fold_left (fun acc p => if RbeModel.mem p acc then acc else acc ++ [p]) more (if RbeModel.mem y l then l else l ++ [y]))
    with (push_all (if RbeModel.mem y l then l else l ++ [y]) more). rewrite IH.
  destruct (RbeModel.mem y l) eqn:E.
  - apply (proj1 (mem_In y l)) in E. simpl. split; [tauto|]. intros [H|[<-|H]]; auto.
  - rewrite in_app_iff. simpl. tauto.
Qed.

Lemma all_match_arc eval T t arcs : all_matched eval T t arcs -> forall kv, In kv arcs -> exists c, arc_matches eval T t kv c.
Proof.
  intros (cs & F & _). induction F as [|kv c arcs cs H F IH]; intros kv' [].
  - subst kv'. exists c. exact H.
  - exact (IH kv' H0).
Qed.
Lemma neighbourhood_perm g n a b : Permutation a b -> neighbourhood g n a -> neighbourhood g n b.
Proof.
  intros P [N H]. split; [exact (Permutation_NoDup P N)|]. intros k v. rewrite <- H. split; intro X.
  - exact (Permutation_in _ (Permutation_sym P) X).
  - exact (Permutation_in _ P X).
Qed.

Section Sel.
  Variable eval : nat -> nat -> bool.
  Variable external : nat -> nat -> bool.
  Variable border : list (option nat * table) -> list (option nat * table).
  Variable corder : list class -> list class.
  Variable sch : schema.
  Variable g : rdf.
  Variable T : typing.
  Variable n : nat.
  Hypothesis H_g : NoDup g.
  Hypothesis H_border : forall l, Permutation (border l) l.
  Hypothesis H_corder : forall l, Permutation l (corder l).
  Notation TK := (fun k => T (node_of k) (label_of k)).

  (** *** constraints judged on the node *)
  Lemma whole_fun i b : whole eval external sch g T n i b -> forall b', whole eval external sch g T n i b' -> b = b'.
  Proof.
    assert (BE : forall (b b' : bool) P, (b = true <-> P) -> (b' = true <-> P) -> b = b').
    { intros x y P H H'. destruct x, y; try reflexivity; [symmetry|]; tauto. }
    induction 1 as [i c b F E|i s b F X E|i j b F W IH|i es F W IH|i es e F I W IH|i es e F I W IH|i es F W IH|i j b F W IH|i b F E|i F];
      intros b' W'; inversion W' as [? c' ? F' E'|? s' ? F' X' E'|? j' b0 F' V|? es' F' V|? es' e' F' I' V|? es' e' F' I' V|? es' F' V|? j' ? F' V|? ? F' E'|? F'];
      subst; rewrite F in F'; try discriminate F'; try (injection F' as <-); try reflexivity.
    - eapply BE; eassumption.
    - eapply BE; eassumption.
    - f_equal. apply IH. exact V.
    - exact (IH e' I' _ V).
    - exact (IH _ (V e I)).
    - exact (IH _ (V e I)).
    - exact (IH e' I' _ V).
    - apply IH. exact V.
    - eapply BE; eassumption.
  Qed.

  Notation cons_check := (check_constraint eval external border corder sch g).
  Lemma cond_sat c v : is_some (cond_matches eval c v) = true <-> satisfies eval c v.
  Proof.
    pose proof (cond_matches_spec eval c v) as X. destruct (cond_matches eval c v); simpl.
    - split; [intros _; apply X|reflexivity].
    - split; [discriminate|intro H; destruct (X H)].
  Qed.

  Lemma check_constraint_whole f : forall i b, flat sch i -> cons_check f n i TK = Some b -> whole eval external sch g T n i b.
  Proof.
    induction f as [|f IH]; intros i b F H; [discriminate|]. cbn [check_constraint] in H.
    inversion F; subst; match goal with E : find sch i = _ |- _ => rewrite E in H end.
    - injection H as <-. econstructor; [eassumption|]. apply cond_sat.
    - match goal with E : s_extends s = [] |- _ => rewrite E in H end. injection H as <-. eapply whole_shape; [eassumption|assumption|].
      apply check_node_shape_spec; assumption.
    - destruct (cons_check f n j TK) as [b'|] eqn:E; [|discriminate]. injection H as <-. eapply whole_not; [eassumption|]. apply IH; assumption.
    - assert (X : (b = true /\ forall e, In e es -> cons_check f n e TK = Some true) \/ (b = false /\ exists e, In e es /\ cons_check f n e TK = Some false)).
      { clear - H. induction es as [|e es IHe]; [injection H as <-; left; split; [reflexivity|intros e []]|].
        destruct (cons_check f n e TK) as [[|]|] eqn:E; [|injection H as <-; right; split; [reflexivity|exists e; split; [left; reflexivity|exact E]]|discriminate].
        destruct (IHe H) as [[-> A]|[-> (e' & I & A)]].
        - left. split; [reflexivity|]. intros x [<-|Hx]; auto.
        - right. split; [reflexivity|]. exists e'. split; [right; exact I|exact A]. }
      destruct X as [[-> A]|[-> (e & I & A)]].
      + eapply whole_and; [eassumption|]. intros e He. apply IH; auto.
      + eapply whole_and_not; [eassumption|exact I|]. apply IH; auto.
    - assert (X : (b = false /\ forall e, In e es -> cons_check f n e TK = Some false) \/ (b = true /\ exists e, In e es /\ cons_check f n e TK = Some true)).
      { clear - H. induction es as [|e es IHe]; [injection H as <-; left; split; [reflexivity|intros e []]|].
        destruct (cons_check f n e TK) as [[|]|] eqn:E; [injection H as <-; right; split; [reflexivity|exists e; split; [left; reflexivity|exact E]]| |discriminate].
        destruct (IHe H) as [[-> A]|[-> (e' & I & A)]].
        - left. split; [reflexivity|]. intros x [<-|Hx]; auto.
        - right. split; [reflexivity|]. exists e'. split; [right; exact I|exact A]. }
      destruct X as [[-> A]|[-> (e & I & A)]].
      + eapply whole_or_not; [eassumption|]. intros e He. apply IH; auto.
      + eapply whole_or; [eassumption|exact I|]. apply IH; auto.
    - eapply whole_ref; [eassumption|]. apply IH; assumption.
    - injection H as <-. eapply whole_external; [eassumption|reflexivity].
    - injection H as <-. eapply whole_empty. eassumption.
  Qed.

  Lemma flat_total i : flat sch i -> exists f0, forall f, f0 <= f -> exists b, cons_check f n i TK = Some b.
  Proof.
    assert (ALL : forall es, (forall e, In e es -> exists f0, forall f, f0 <= f -> exists b, cons_check f n e TK = Some b) ->
      exists f0, forall f e, f0 <= f -> In e es -> exists b, cons_check f n e TK = Some b).
    { intros es H. induction es as [|e es IH]; [exists 0; intros f e _ []|].
      destruct (H e (or_introl eq_refl)) as (f1 & H1). destruct (IH (fun x Hx => H x (or_intror Hx))) as (f2 & H2).
      exists (f1 + f2). intros f x L [<-|Hx]; [apply H1; lia|apply H2; [lia|exact Hx]]. }
    induction 1 as [i c F|i s F E X|i j F _ (f0 & IH)|i es F _ IH|i es F _ IH|i j F _ (f0 & IH)|i F|i F].
    - exists 1. intros [|f] L; [lia|]. cbn [check_constraint]. rewrite F. eauto.
    - exists 1. intros [|f] L; [lia|]. cbn [check_constraint]. rewrite F, E. eauto.
    - exists (S f0). intros [|f] L; [lia|]. cbn [check_constraint]. rewrite F. destruct (IH f ltac:(lia)) as (b & ->). simpl. eauto.
    - destruct (ALL es IH) as (f0 & A). exists (S f0). intros [|f] L; [lia|]. cbn [check_constraint]. rewrite F.
      specialize (fun e => A f e ltac:(lia)). clear - A. induction es as [|e es IHe]; [eauto|].
      destruct (A e (or_introl eq_refl)) as ([|] & ->); [apply IHe; intros x Hx; apply A; right; exact Hx|eauto].
    - destruct (ALL es IH) as (f0 & A). exists (S f0). intros [|f] L; [lia|]. cbn [check_constraint]. rewrite F.
      specialize (fun e => A f e ltac:(lia)). clear - A. induction es as [|e es IHe]; [eauto|].
      destruct (A e (or_introl eq_refl)) as ([|] & ->); [eauto|apply IHe; intros x Hx; apply A; right; exact Hx].
    - exists (S f0). intros [|f] L; [lia|]. cbn [check_constraint]. rewrite F. apply IH. lia.
    - exists 1. intros [|f] L; [lia|]. cbn [check_constraint]. rewrite F. eauto.
    - exists 1. intros [|f] L; [lia|]. cbn [check_constraint]. rewrite F. eauto.
  Qed.

  Notation CH := (constraint_holds eval external sch g T n).
  Lemma judged_holds c arcs : judged_whole sch c -> (CH arcs c <-> whole eval external sch g T n c true).
  Proof.
    intros (F & [(j & E)|[(es & E)|[E|E]]]); (split; [intro H; inversion H; subst; try congruence; try assumption|intro W]).
    - eapply con_not; eassumption.
    - eapply con_or; eassumption.
    - eapply con_external; eassumption.
    - apply whole_empty. exact E.
    - apply con_empty. exact E.
  Qed.

  Lemma arcs_conform_perm s a b : Permutation a b -> arcs_conform eval T s a -> arcs_conform eval T s b.
  Proof. intros P (m & r & Q & H). exists m, r. split; [rewrite Q; exact P|exact H]. Qed.
  Lemma constraint_perm c a b : Permutation a b -> CH a c -> CH b c.
  Proof.
    intros P H. induction H.
    - eapply con_node; eassumption.
    - eapply con_shape; try eassumption. eapply arcs_conform_perm; eassumption.
    - eapply con_ref; eassumption.
    - eapply con_and; [eassumption|assumption].
    - eapply con_not; eassumption.
    - eapply con_or; eassumption.
    - eapply con_external; eassumption.
    - eapply con_empty; eassumption.
  Qed.

  (** *** constraints that are split *)
  Lemma tight_shape_conform s arcs : exact_shape s -> s_extra s = [] -> (forall kv, In kv arcs -> mentioned (s_table s) (fst kv)) ->
    (check_expr_neigh eval (s_table s) arcs TK = true <-> arcs_conform eval T s arcs).
  Proof.
    intros (U & O & P) X M. rewrite (check_expr_neigh_spec eval T (s_table s) _ arcs U O M). split.
    - intros (cs & F & L). exists arcs, []. split; [rewrite app_nil_r; reflexivity|]. split; [exists cs; auto|intros k v []].
    - intros (m & r & Q & A & R). destruct r as [|[k v] r].
      + rewrite app_nil_r in Q. exact (all_matched_perm eval T _ _ _ Q A).
      + destruct (R k v (or_introl eq_refl)) as [R1 _]. destruct R1 as [R1 _]; [|rewrite X in R1; destruct R1].
        apply (M (k, v)). apply (Permutation_in _ Q). apply in_app_iff. right. left. reflexivity.
  Qed.

  Lemma try_split_tight P f : forall c r, tight sch P c -> try_split eval sch f n c = Some r ->
    match r with
    | NotSplit => False
    | SplitFails => forall arcs, ~ CH arcs c
    | Split tes => forall arcs, (forall kv, In kv arcs -> P (fst kv)) ->
        (forallb (fun te => check_expr_neigh eval te arcs TK) tes = true <-> CH arcs c)
    end.
  Proof.
    induction f as [|f IH]; intros c r Tc H; [discriminate|]. cbn [try_split] in H.
    inversion Tc as [? cd E|? s E X EX Z M|? j E Tj|? es E Te]; subst; rewrite E in H.
    - injection H as <-. pose proof (cond_sat cd n) as CS. destruct (is_some (cond_matches eval cd n)).
      + intros arcs _. split; [|reflexivity]. intros _. eapply con_node; [exact E|apply CS; reflexivity].
      + intros arcs Hc. inversion Hc; subst; try congruence.
        match goal with H : find sch c = Some (ENode _) |- _ => rewrite E in H; injection H as <- end.
        assert (false = true) by (apply CS; assumption). discriminate.
    - rewrite X in H. injection H as <-. intros arcs A. cbn [forallb]. rewrite andb_true_r.
      rewrite (tight_shape_conform s arcs EX Z (fun kv Hkv => M _ (A kv Hkv))). split.
      + intro C. eapply con_shape; eassumption.
      + intro Hc. inversion Hc; subst; congruence.
    - specialize (IH j r Tj H). destruct r as [| |tes]; [exact IH| |].
      + intros arcs Hc. inversion Hc; subst; try congruence.
        match goal with H : find sch c = Some (ERef _) |- _ => rewrite E in H; injection H as <- end. eapply IH; eassumption.
      + intros arcs A. rewrite (IH arcs A). split; [intro; eapply con_ref; eassumption|]. intro Hc. inversion Hc; subst; congruence.
    - match type of H with ?go es = _ => set (GO := go) in H end.
      assert (X : match r with
        | NotSplit => False
        | SplitFails => exists e, In e es /\ forall arcs, ~ CH arcs e
        | Split tes => forall arcs, (forall kv, In kv arcs -> P (fst kv)) ->
            (forallb (fun te => check_expr_neigh eval te arcs TK) tes = true <-> forall e, In e es -> CH arcs e)
        end).
      { clear E Tc. revert r H Te. induction es as [|e es IHe]; intros r H Te.
        - injection H as <-. intros arcs _. split; [intros _ e []|reflexivity].
        - cbn [GO] in H. fold GO in H. destruct (try_split eval sch f n e) as [r1|] eqn:E1; [|discriminate].
          pose proof (IH e r1 (Te e (or_introl eq_refl)) E1) as X1. destruct r1 as [| |tes1].
          + destruct X1.
          + injection H as <-. exists e. split; [left; reflexivity|exact X1].
          + destruct (GO es) as [r2|] eqn:E2; [|discriminate].
            pose proof (IHe r2 eq_refl (fun x Hx => Te x (or_intror Hx))) as X2. destruct r2 as [| |tes2].
            * destruct X2.
            * injection H as <-. destruct X2 as (x & Hx & X2). exists x. split; [right; exact Hx|exact X2].
            * injection H as <-. intros arcs A. rewrite forallb_app, andb_true_iff, (X1 arcs A), (X2 arcs A). split.
              -- intros [Y1 Y2] x [<-|Hx]; auto.
              -- intro Y. split; [apply Y; left; reflexivity|]. intros x Hx. apply Y. right. exact Hx. }
      destruct r as [| |tes]; [exact X| |].
      + intros arcs Hc. inversion Hc; subst; try congruence.
        match goal with H : find sch c = Some (EAnd _) |- _ => rewrite E in H; injection H as <- end.
        destruct X as (e & He & X). exact (X arcs (H1 e He)).
      + intros arcs A. rewrite (X arcs A). split; [intro; eapply con_and; eassumption|]. intro Hc. inversion Hc; subst; try congruence.
        match goal with H : find sch c = Some (EAnd _) |- _ => rewrite E in H; injection H as <- end. assumption.
  Qed.
  Lemma try_split_judged f c r : judged_whole sch c -> try_split eval sch f n c = Some r -> r = NotSplit.
  Proof.
    intros (_ & J) H. destruct f as [|f]; [discriminate|]. cbn [try_split] in H.
    destruct J as [(j & E)|[(es & E)|[E|E]]]; rewrite E in H; congruence.
  Qed.
  Lemma try_split_total P c : tight sch P c -> exists f0, forall f, f0 <= f -> exists r, try_split eval sch f n c = Some r.
  Proof.
    induction 1 as [i cd E|i s E X EX Z M|i j E _ (f0 & IH)|i es E _ IH].
    - exists 1. intros [|f] L; [lia|]. cbn [try_split]. rewrite E. eauto.
    - exists 1. intros [|f] L; [lia|]. cbn [try_split]. rewrite E, X. eauto.
    - exists (S f0). intros [|f] L; [lia|]. cbn [try_split]. rewrite E. apply IH. lia.
    - assert (A : exists f0, forall f e, f0 <= f -> In e es -> exists r, try_split eval sch f n e = Some r).
      { clear E. induction es as [|e es IHe]; [exists 0; intros f e _ []|]. destruct (IH e (or_introl eq_refl)) as (f1 & H1).
        destruct (IHe (fun x Hx => IH x (or_intror Hx))) as (f2 & H2).
        exists (f1 + f2). intros f x L [<-|Hx]; [apply H1; lia|apply H2; [lia|exact Hx]]. }
      destruct A as (f0 & A). exists (S f0). intros [|f] L; [lia|]. cbn [try_split]. rewrite E. specialize (fun e => A f e ltac:(lia)).
      clear - A. induction es as [|e es IHe]; [eauto|].
      destruct (A e (or_introl eq_refl)) as ([| |tes] & ->); eauto.
      destruct (IHe (fun x Hx => A x (or_intror Hx))) as ([| |tes'] & ->); eauto.
  Qed.
  Lemma try_split_total_judged c : judged_whole sch c -> forall f, 1 <= f -> exists r, try_split eval sch f n c = Some r.
  Proof.
    intros (_ & J) [|f] L; [lia|]. cbn [try_split]. destruct J as [(j & E)|[(es & E)|[E|E]]]; rewrite E; eauto.
  Qed.

  Notation scope_pred S := (fun k => exists b t, In b S /\ takes sch b t /\ mentioned t k).

  Lemma split_constraints_spec fc f (A : list nat -> list (nat * nat)) : forall cs r,
    (forall x, In x cs -> readable sch (sc_scope x) (sc_expr x)) ->
    (forall x, In x cs -> forall kv, In kv (A (sc_scope x)) -> scope_pred (sc_scope x) (fst kv)) ->
    split_constraints eval sch f (fun i => cons_check fc n i TK) n cs = Some r ->
    match r with
    | None => exists x, In x cs /\ ~ CH (A (sc_scope x)) (sc_expr x)
    | Some l => forallb (fun c => forallb (fun te => check_expr_neigh eval te (A (fst c)) TK) (snd c)) l = true <->
                forall x, In x cs -> CH (A (sc_scope x)) (sc_expr x)
    end.
  Proof.
    induction cs as [|x cs IH]; intros r HR HA H.
    { injection H as <-. split; [intros _ x []|reflexivity]. }
    specialize (fun r => IH r (fun y Hy => HR y (or_intror Hy)) (fun y Hy => HA y (or_intror Hy))).
    cbn [split_constraints] in H. destruct (try_split eval sch f n (sc_expr x)) as [q|] eqn:E; [|discriminate].
    assert (GOOD : CH (A (sc_scope x)) (sc_expr x) -> forall r', split_constraints eval sch f (fun i => cons_check fc n i TK) n cs = Some r' ->
       match r' with
       | None => exists y, In y (x :: cs) /\ ~ CH (A (sc_scope y)) (sc_expr y)
       | Some l => forallb (fun c => forallb (fun te => check_expr_neigh eval te (A (fst c)) TK) (snd c)) l = true <->
                forall y, In y (x :: cs) -> CH (A (sc_scope y)) (sc_expr y)
       end).
    { intros G r' H'. specialize (IH r' H'). destruct r' as [l|].
      - rewrite IH. split; [intros Y y [<-|Hy]; auto|intros Y y Hy; apply Y; right; exact Hy].
      - destruct IH as (y & Hy & NY). exists y. split; [right; exact Hy|exact NY]. }
    destruct (HR x (or_introl eq_refl)) as [J|Ti].
    - pose proof (try_split_judged f _ q J E) as ->. destruct (cons_check fc n (sc_expr x) TK) as [b|] eqn:W; [|discriminate].
      apply check_constraint_whole in W; [|apply J]. destruct b.
      + apply GOOD; [apply (judged_holds _ _ J); exact W|exact H].
      + injection H as <-. exists x. split; [left; reflexivity|]. intro C. apply (judged_holds _ _ J) in C.
        pose proof (whole_fun _ _ C _ W). discriminate.
    - pose proof (try_split_tight _ f _ q Ti E) as X. destruct q as [| |tes].
      + destruct X.
      + injection H as <-. exists x. split; [left; reflexivity|apply X].
      + specialize (X (A (sc_scope x)) (HA x (or_introl eq_refl))). destruct tes as [|te tes].
        * apply GOOD; [apply X; reflexivity|exact H].
        * destruct (split_constraints eval sch f (fun i => cons_check fc n i TK) n cs) as [r'|] eqn:E'; [|discriminate].
          injection H as <-. specialize (IH r' eq_refl). destruct r' as [l|]; cbn [option_map].
          -- cbn [forallb fst snd] in *. rewrite andb_true_iff. rewrite X, IH. split; [intros [Y1 Y2] y [<-|Hy]; auto|].
             intro Y. split; [apply Y; left; reflexivity|]. intros y Hy. apply Y. right. exact Hy.
          -- destruct IH as (y & Hy & NY). exists y. split; [right; exact Hy|exact NY].
  Qed.
  Lemma split_constraints_total cs : (forall x, In x cs -> readable sch (sc_scope x) (sc_expr x)) ->
    exists f0, forall f, f0 <= f -> exists r, split_constraints eval sch f (fun i => cons_check f n i TK) n cs = Some r.
  Proof.
    intro H. assert (A : exists f0, forall f x, f0 <= f -> In x cs -> (exists r, try_split eval sch f n (sc_expr x) = Some r) /\
       (judged_whole sch (sc_expr x) -> exists b, cons_check f n (sc_expr x) TK = Some b) /\
       (try_split eval sch f n (sc_expr x) = Some NotSplit -> judged_whole sch (sc_expr x))).
    { induction cs as [|x cs IH]; [exists 0; intros f x _ []|]. destruct (IH (fun y Hy => H y (or_intror Hy))) as (f2 & H2).
      destruct (H x (or_introl eq_refl)) as [J|Ti].
      - destruct (flat_total (sc_expr x) (proj1 J)) as (f1 & H1). exists (S (f1 + f2)). intros f y L [<-|Hy]; [|apply H2; [lia|exact Hy]].
        split; [apply try_split_total_judged; [exact J|lia]|]. split; [intros _; apply H1; lia|intros _; exact J].
      - destruct (try_split_total _ _ Ti) as (f1 & H1). exists (S (f1 + f2)). intros f y L [<-|Hy]; [|apply H2; [lia|exact Hy]].
        split; [apply H1; lia|]. split.
        + intro J. exfalso. clear - J Ti. destruct J as (_ & J). inversion Ti; subst; destruct J as [(? & J)|[(? & J)|[J|J]]]; congruence.
        + intro E. destruct (try_split_tight _ f _ _ Ti E). }
    destruct A as (f0 & A). exists f0. intros f L. specialize (fun x => A f x L). clear H L.
    assert (B : forall fc l, (forall x, In x l -> (exists r, try_split eval sch f n (sc_expr x) = Some r) /\
       (try_split eval sch f n (sc_expr x) = Some NotSplit -> exists b, cons_check fc n (sc_expr x) TK = Some b)) ->
       exists r, split_constraints eval sch f (fun i => cons_check fc n i TK) n l = Some r).
    { intros fc l. induction l as [|x l IH]; intro H; [simpl; eauto|]. cbn [split_constraints].
      destruct (H x (or_introl eq_refl)) as ((q & E) & W). destruct (IH (fun y Hy => H y (or_intror Hy))) as (r & R). rewrite E.
      destruct q as [| |[|te tes]].
      - destruct (W E) as ([|] & ->); eauto.
      - eauto.
      - eauto.
      - rewrite R. simpl. eauto. }
    apply B. intros x Hx. destruct (A x Hx) as (A1 & A2 & A3). split; [exact A1|]. intro E. apply A2, A3, E.
  Qed.
End Sel.
