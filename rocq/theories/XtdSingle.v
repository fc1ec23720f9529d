(** Parents that are shapes: the path for one alternative. *)
From Coq Require Import List Arith Bool Lia Permutation.
Import ListNotations.
From Verif Require Import RbeModel RbeSpec RbeDeriv RbeFinal PendingModel TableModel TableSpec TableLemmas GraphModel GraphSpec GraphLemmas
  StepModel StepSpec ClassModel ClassSpec ClassFinal ExtModel ExtSpec ExtLemmas EngineModel EngineSpec EngineShape
  XtdModel XtdSpec XtdPart XtdRes XtdSel XtdChk XtdMain.

Lemma rmem_In x l : RbeModel.mem x l = true <-> In x l.
Proof. exact (mem_In x l). Qed.
Lemma rmem_not x l : RbeModel.mem x l = false <-> ~ In x l.
Proof. rewrite <- not_true_iff_false, rmem_In. reflexivity. Qed.

(** ** enough fuel for the ancestors *)
Definition weight (g : graph unit) (disc : list nat) : nat := length (filter (fun e => negb (GraphModel.mem (fst (fst e)) disc)) g).
Lemma weight_visit g disc n : ~ In n disc -> weight g (n :: disc) + length (succs g n) = weight g disc.
Proof.
  intro N. unfold weight, succs, out_edges. rewrite !map_length. induction g as [|[[a b] w] g IH]; [reflexivity|]. cbn [filter fst].
  change (GraphModel.mem a (n :: disc)) with (Nat.eqb a n || GraphModel.mem a disc). destruct (Nat.eqb_spec a n) as [->|Na]; cbn [orb negb].
  - destruct (GraphModel.mem n disc) eqn:M; [apply mem_In in M; contradiction|]. cbn [negb length]. lia.
  - destruct (GraphModel.mem a disc); cbn [negb length]; lia.
Qed.
Lemma filter_le {A} (f : A -> bool) l : length (filter f l) <= length l.
Proof. induction l as [|x l IH]; [reflexivity|]. simpl. destruct (f x); simpl; lia. Qed.
Lemma dfs_enough g : forall fuel stack disc, length stack + weight g disc < fuel -> exists l, dfs fuel (succs g) stack disc = Some l.
Proof.
  induction fuel as [|f IH]; intros stack disc L; [lia|]. cbn [dfs]. destruct stack as [|n st]; [eauto|]. cbn [length] in L.
  destruct (GraphModel.mem n disc) eqn:M; [apply IH; lia|].
  destruct (IH (rev (filter (fun s => negb (GraphModel.mem s (n :: disc))) (succs g n)) ++ st) (n :: disc)) as (l & ->); [|eauto].
  rewrite app_length, rev_length. pose proof (filter_le (fun s => negb (GraphModel.mem s (n :: disc))) (succs g n)).
  assert (NI : ~ In n disc) by (intro H0; apply mem_In in H0; congruence). pose proof (weight_visit g disc n NI). lia.
Qed.
Lemma parents_enough g n : exists l, parents (S (S (length g))) g n = Some l.
Proof.
  destruct (dfs_enough g (S (S (length g))) [n] []) as (l & E); [|unfold parents; rewrite E; simpl; eauto].
  cbn [length]. pose proof (filter_le (fun e : nat * nat * unit => negb (GraphModel.mem (fst (fst e)) [])) g). unfold weight. lia.
Qed.

Section Plain.
  Variable sch : schema.

  Lemma plain_main i s : find sch i = Some (EShape s) -> main_shape_constraints sch i = Some (mkMain [] (Some s) []).
  Proof.
    intro F. unfold main_shape_constraints. assert (dereference sch i = i) as ->.
    { unfold dereference. cbn [deref_loop]. change (RbeModel.mem i []) with false. cbn iota. rewrite F. reflexivity. }
    rewrite F. reflexivity.
  Qed.
  Lemma plain_find i : plain_line sch i -> exists s, find sch i = Some (EShape s) /\ forall p, In p (s_extends s) -> plain_line sch p.
  Proof. intro P. inversion P as [? s F H]; subst. eauto. Qed.
  Lemma plain_reach i j : reach (line_edge sch) i j -> plain_line sch i -> plain_line sch j.
  Proof.
    induction 1 as [i|i k j (s & F & H) R IH]; intro P; [exact P|]. apply IH. destruct (plain_find i P) as (s' & F' & P'). apply P'. congruence.
  Qed.

  (** the ways to extend a plain line *)
  Definition beneath (is : list nat) (b : nat) : Prop := exists i, In i is /\ reach (line_edge sch) i b.
  Lemma plain_resolves i : plain_line sch i -> (exists B, resolves sch i B []) /\
    forall B K, resolves sch i B K -> K = [] /\ forall b, In b B <-> reach (line_edge sch) i b.
  Proof.
    induction 1 as [i s F _ IH].
    assert (ALL : forall ps, (forall p, In p ps -> (exists B, resolves sch p B []) /\ forall B K, resolves sch p B K -> K = [] /\ forall b, In b B <-> reach (line_edge sch) p b) ->
      (exists B, resolves_all sch ps B []) /\ forall B K, resolves_all sch ps B K -> K = [] /\ forall b, In b B <-> beneath ps b).
    { induction ps as [|p ps IHp]; intro H.
      - split; [exists []; constructor|]. intros B K R. inversion R; subst. split; [reflexivity|]. intro b. split; [intros []|intros (j & [] & _)].
      - destruct (H p (or_introl eq_refl)) as [(B1 & R1) U1]. destruct (IHp (fun q Hq => H q (or_intror Hq))) as [(B2 & R2) U2]. split.
        + exists (B1 ++ B2). exact (res_cons sch p ps B1 [] B2 [] R1 R2).
        + intros B K R. inversion R as [|? ? B1' K1' B2' K2' R1' R2']; subst. destruct (U1 _ _ R1') as [-> E1]. destruct (U2 _ _ R2') as [-> E2].
          split; [reflexivity|]. intro b. rewrite in_app_iff, E1, E2. split.
          * intros [X|(j & Hj & X)]; [exists p; split; [left; reflexivity|exact X]|exists j; split; [right; exact Hj|exact X]].
          * intros (j & [<-|Hj] & X); [left; exact X|right; exists j; auto]. }
    destruct (ALL _ IH) as [(B & R) U]. split.
    - exists (i :: B). exact (res_shape sch i s B [] F R).
    - intros B' K' R'. inversion R' as [|? s' B0 K0 F' RA| | | | | | | |]; subst; try congruence. rewrite F in F'. injection F' as <-.
      destruct (U _ _ RA) as [-> E]. split; [reflexivity|]. intro b. cbn [In]. rewrite E. split.
      + intros [<-|(j & Hj & X)]; [apply reach_refl|]. exact (reach_step _ i j b (ex_intro _ s (conj F Hj)) X).
      + intro X. inversion X as [|? j ? (s' & F' & Hj) X']; subst; [left; reflexivity|]. right. exists j. split; [congruence|exact X'].
  Qed.
  Lemma plain_resolves_all ps : (forall p, In p ps -> plain_line sch p) -> (exists B, resolves_all sch ps B []) /\
    forall B K, resolves_all sch ps B K -> K = [] /\ forall b, In b B <-> beneath ps b.
  Proof.
    induction ps as [|p ps IHp]; intro H.
    - split; [exists []; constructor|]. intros B K R. inversion R; subst. split; [reflexivity|]. intro b. split; [intros []|intros (j & [] & _)].
    - destruct (plain_resolves p (H p (or_introl eq_refl))) as [(B1 & R1) U1]. destruct (IHp (fun q Hq => H q (or_intror Hq))) as [(B2 & R2) U2]. split.
      + exists (B1 ++ B2). exact (res_cons sch p ps B1 [] B2 [] R1 R2).
      + intros B K R. inversion R as [|? ? B1' K1' B2' K2' R1' R2']; subst. destruct (U1 _ _ R1') as [-> E1]. destruct (U2 _ _ R2') as [-> E2].
        split; [reflexivity|]. intro b. rewrite in_app_iff, E1, E2. split.
        * intros [X|(j & Hj & X)]; [exists p; split; [left; reflexivity|exact X]|exists j; split; [right; exact Hj|exact X]].
        * intros (j & [<-|Hj] & X); [left; exact X|right; exists j; auto].
  Qed.

  (** ** the closure *)
  Definition ext_len (i : nat) : nat := match find sch i with Some (EShape s) => length (s_extends s) | _ => 0 end.

  Lemma closure_facts f : forall queue result r, (forall q, In q queue -> plain_line sch q) ->
    NoDup result -> (forall x y, In x result -> line_edge sch x y -> In y result \/ In y queue) ->
    closure_loop sch f queue result = Some r ->
    NoDup r /\ (forall x, In x result \/ In x queue -> In x r) /\ (forall x y, In x r -> line_edge sch x y -> In y r) /\
    (forall x, In x r -> In x result \/ beneath queue x).
  Proof.
    induction f as [|f IH]; intros queue result r PQ ND CL H; [discriminate|]. cbn [closure_loop] in H.
    destruct queue as [|a queue].
    { injection H as <-. split; [exact ND|]. split; [intros x [X|[]]; exact X|]. split; [|auto].
      intros x y Hx Hy. destruct (CL x y Hx Hy) as [X|[]]. exact X. }
    destruct (RbeModel.mem a result) eqn:M.
    - apply rmem_In in M. destruct (IH queue result r) as (N & I & C & O); [intros q Hq; apply PQ; right; exact Hq|exact ND| |exact H|].
      { intros x y Hx Hy. destruct (CL x y Hx Hy) as [X|[<-|X]]; auto. }
      split; [exact N|]. split; [intros x [X|[<-|X]]; auto|]. split; [exact C|].
      intros x Hx. destruct (O x Hx) as [X|(i & Hi & X)]; [auto|right; exists i; split; [right; exact Hi|exact X]].
    - apply rmem_not in M. destruct (plain_find a (PQ a (or_introl eq_refl))) as (s & F & PS). rewrite (plain_main a s F) in H.
      apply IH in H.
      + destruct H as (N & I & C & O). split; [exact N|]. split; [|split; [exact C|]].
        * intros x [X|[<-|X]]; apply I; [left; apply in_app_iff; auto|left; apply in_app_iff; right; left; reflexivity|right; apply in_app_iff; auto].
        * intros x Hx. destruct (O x Hx) as [X|(i & Hi & X)].
          -- apply in_app_iff in X. destruct X as [X|[<-|[]]]; [auto|right; exists a; split; [left; reflexivity|apply reach_refl]].
          -- right. apply in_app_iff in Hi. destruct Hi as [Hi|Hi]; [|exists i; split; [right; exact Hi|exact X]].
             apply in_rev in Hi. apply filter_In in Hi. exists a. split; [left; reflexivity|]. apply (reach_step _ a i x); [exists s; split; [exact F|apply Hi]|exact X].
      + intros q Hq. apply in_app_iff in Hq. destruct Hq as [Hq|Hq]; [|apply PQ; right; exact Hq]. apply in_rev in Hq. apply filter_In in Hq. apply PS, Hq.
      + apply NoDup_app_intro; [exact ND|constructor; [intros []|constructor]|]. intros x Hx [<-|[]]. exact (M Hx).
      + intros x y Hx Hy. apply in_app_iff in Hx. destruct Hx as [Hx|[<-|[]]].
        * destruct (CL x y Hx Hy) as [X|[<-|X]]; [left; apply in_app_iff; auto|left; apply in_app_iff; right; left; reflexivity|right; apply in_app_iff; auto].
        * destruct Hy as (s' & F' & Hy). rewrite F in F'. injection F' as <-.
          destruct (RbeModel.mem y (result ++ [a])) eqn:My; [left; apply rmem_In; exact My|right]. apply in_app_iff. left. apply in_rev. rewrite rev_involutive.
          apply filter_In. split; [exact Hy|]. rewrite My. reflexivity.
  Qed.
  Lemma extends_closure_spec f roots r : (forall p, In p roots -> plain_line sch p) -> extends_closure sch f roots = Some r ->
    NoDup r /\ forall x, In x r <-> beneath roots x.
  Proof.
    intros P H. unfold extends_closure in H. apply closure_facts in H.
    - destruct H as (N & I & C & O). split; [exact N|]. intro x. split.
      + intro Hx. destruct (O x Hx) as [[]|(i & Hi & X)]. exists i. split; [apply in_rev; exact Hi|exact X].
      + intros (i & Hi & X). assert (Hr : In i r) by (apply I; right; apply in_rev; rewrite rev_involutive; exact Hi).
        clear Hi. induction X as [i|i j x E X IHX]; [exact Hr|]. apply IHX. exact (C i j Hr E).
    - intros q Hq. apply P. apply in_rev. exact Hq.
    - constructor.
    - intros x y [].
  Qed.

  Definition pending (dom : list nat) (result : list nat) : nat :=
    list_sum (map (fun i => if RbeModel.mem i result then 0 else S (ext_len i)) dom).
  Lemma pending_visit dom : forall result a, ~ In a result -> In a dom -> pending dom (result ++ [a]) + S (ext_len a) <= pending dom result.
  Proof.
    unfold pending. induction dom as [|i dom IH]; intros result a N I; [destruct I|]. cbn [map list_sum fold_right].
    assert (MM : forall j, RbeModel.mem j (result ++ [a]) = RbeModel.mem j result || Nat.eqb j a).
    { intro j. unfold RbeModel.mem. rewrite existsb_app. cbn [existsb]. rewrite orb_false_r. reflexivity. }
    assert (LE : forall d, list_sum (map (fun i => if RbeModel.mem i (result ++ [a]) then 0 else S (ext_len i)) d) <=
                 list_sum (map (fun i => if RbeModel.mem i result then 0 else S (ext_len i)) d)).
    { induction d as [|j d IHd]; [reflexivity|]. cbn [map list_sum fold_right]. rewrite MM. unfold list_sum in IHd. destruct (RbeModel.mem j result); cbn [orb]; [lia|].
      destruct (Nat.eqb j a); lia. }
    rewrite MM. destruct (Nat.eqb_spec i a) as [->|Na].
    - rewrite orb_true_r. apply rmem_not in N. rewrite N. specialize (LE dom). unfold list_sum in *. lia.
    - rewrite orb_false_r. destruct I as [->|I]; [congruence|]. specialize (IH result a N I). unfold list_sum in *. destruct (RbeModel.mem i result); lia.
  Qed.
  Lemma closure_enough f : forall queue result, (forall q, In q queue -> plain_line sch q) ->
    length queue + pending (map fst (shapes sch)) result < f -> exists r, closure_loop sch f queue result = Some r.
  Proof.
    induction f as [|f IH]; intros queue result PQ L; [lia|]. cbn [closure_loop]. destruct queue as [|a queue]; [eauto|]. cbn [length] in L.
    destruct (RbeModel.mem a result) eqn:M; [apply IH; [intros q Hq; apply PQ; right; exact Hq|lia]|]. apply rmem_not in M.
    destruct (plain_find a (PQ a (or_introl eq_refl))) as (s & F & PS). rewrite (plain_main a s F). apply IH.
    - intros q Hq. apply in_app_iff in Hq. destruct Hq as [Hq|Hq]; [|apply PQ; right; exact Hq]. apply in_rev in Hq. apply filter_In in Hq. apply PS, Hq.
    - rewrite app_length, rev_length. pose proof (filter_le (fun e => negb (RbeModel.mem e (result ++ [a]))) (s_extends s)).
      pose proof (pending_visit (map fst (shapes sch)) result a M (find_dom sch a _ F)) as X.
      assert (ext_len a = length (s_extends s)) by (unfold ext_len; rewrite F; reflexivity). lia.
  Qed.
  Lemma closure_le f : forall f' queue result r, f <= f' -> closure_loop sch f queue result = Some r -> closure_loop sch f' queue result = Some r.
  Proof.
    induction f as [|f IH]; intros [|f'] queue result r L H; try discriminate; [lia|]. cbn [closure_loop] in *.
    destruct queue as [|a queue]; [exact H|]. destruct (RbeModel.mem a result); [apply IH; [lia|exact H]|].
    destruct (main_shape_constraints sch a) as [[ncs [m|] rest]|]; apply IH; try lia; exact H.
  Qed.
  Lemma closure_total roots : (forall p, In p roots -> plain_line sch p) ->
    exists f0, forall f, f0 <= f -> exists r, extends_closure sch f roots = Some r.
  Proof.
    intros P. exists (S (length roots + pending (map fst (shapes sch)) [])). intros f L. apply closure_enough.
    - intros q Hq. apply P. apply in_rev. exact Hq.
    - rewrite rev_length. lia.
  Qed.
End Plain.

Lemma neighs_ext n a b g : (forall k, In k a <-> In k b) -> neighs n a g = neighs n b g.
Proof.
  intro H. assert (M : forall k, GraphModel.mem k a = GraphModel.mem k b).
  { intro k. apply eq_true_iff_eq. rewrite !mem_In. apply H. }
  unfold neighs. f_equal; [f_equal|].
  - unfold outgoing. apply flat_map_ext. intros [[s p] o]. change ((if Nat.eqb s n && GraphModel.mem (direct p) a then [(direct p, o)] else []) =
      (if Nat.eqb s n && GraphModel.mem (direct p) b then [(direct p, o)] else [])). rewrite M. reflexivity.
  - unfold incoming. apply flat_map_ext. intros [[s p] o]. change ((if Nat.eqb o n && GraphModel.mem (inverse p) a then [(inverse p, s)] else []) =
      (if Nat.eqb o n && GraphModel.mem (inverse p) b then [(inverse p, s)] else [])). rewrite M. reflexivity.
  - apply flat_map_ext. intros [[s p] o]. change ((if Nat.eqb s n && negb (GraphModel.mem (direct p) a) then [p] else []) =
      (if Nat.eqb s n && negb (GraphModel.mem (direct p) b) then [p] else [])). rewrite M. reflexivity.
Qed.

Section Single.
  Variable eval : nat -> nat -> bool.
  Variable external : nat -> nat -> bool.
  Variable border : list (option nat * table) -> list (option nat * table).
  Variable corder : list class -> list class.
  Variable sch : schema.
  Variable g : rdf.
  Variable T : typing.
  Hypothesis H_g : NoDup g.
  Hypothesis H_border : forall l, Permutation (border l) l.
  Hypothesis H_corder : forall l, Permutation l (corder l).
  Notation TK := (fun k => T (node_of k) (label_of k)).

  Definition shape_bucket (b : nat) : list (option nat * table) := match find sch b with Some (EShape t) => [(Some b, s_table t)] | _ => [] end.

  Lemma ancestor_buckets_spec f n l : (forall a, In a l -> plain_line sch a) ->
    (forall r, ancestor_buckets eval sch f n l = Some r -> r = Some (flat_map shape_bucket l, [])) .
  Proof.
    induction l as [|a l IH]; intros P r H; [injection H as <-; reflexivity|]. cbn [ancestor_buckets] in H.
    destruct (plain_find sch a (P a (or_introl eq_refl))) as (s & F & PS). rewrite (plain_main sch a s F) in H. cbn [m_main m_ncs m_rest collect_each] in H.
    destruct (extends_closure sch f (s_extends s)) as [sc|]; [|discriminate]. cbn [all_match forallb] in H.
    destruct (ancestor_buckets eval sch f n l) as [r'|] eqn:E; [|discriminate].
    rewrite (IH (fun x Hx => P x (or_intror Hx)) r' eq_refl) in H. injection H as <-. cbn [flat_map]. unfold shape_bucket at 2. rewrite F. reflexivity.
  Qed.
  Lemma ancestor_buckets_total n l : (forall a, In a l -> plain_line sch a) ->
    exists f0, forall f, f0 <= f -> exists r, ancestor_buckets eval sch f n l = Some r.
  Proof.
    induction l as [|a l IH]; intros P; [exists 0; intros f _; eexists; reflexivity|].
    destruct (plain_find sch a (P a (or_introl eq_refl))) as (s & F & PS). destruct (IH (fun x Hx => P x (or_intror Hx))) as (f1 & H1).
    destruct (closure_total sch (s_extends s) PS) as (f2 & H2). exists (f1 + f2). intros f L. cbn [ancestor_buckets]. rewrite (plain_main sch a s F).
    cbn [m_main m_ncs m_rest collect_each]. destruct (H2 f ltac:(lia)) as (sc & ->). cbn [all_match forallb]. destruct (H1 f ltac:(lia)) as (r & ->). simpl. eauto.
  Qed.

  Lemma preds_of_all_spec f is ps : (forall i, In i is -> plain_line sch i) -> preds_of_all sch f is = Some ps ->
    forall k, In k ps <-> exists i t, In i is /\ find sch i = Some (EShape t) /\ In k (s_preds t).
  Proof.
    revert ps. induction is as [|i is IH]; intros ps P H k; [injection H as <-; split; [intros []|intros (i & t & [] & _)]|]. cbn [preds_of_all] in H.
    destruct (plain_find sch i (P i (or_introl eq_refl))) as (s & F & _). rewrite F in H. destruct f as [|f]; [discriminate|]. cbn [preds_visited] in H.
    destruct (preds_of_all sch (S f) is) as [qs|] eqn:E; [|discriminate]. injection H as <-. rewrite in_app_iff, (IH qs (fun x Hx => P x (or_intror Hx)) eq_refl). split.
    - intros [X|(j & t & Hj & X)]; [exists i, s; split; [left; reflexivity|auto]|exists j, t; split; [right; exact Hj|exact X]].
    - intros (j & t & [<-|Hj] & Fj & X); [left; congruence|right; exists j, t; auto].
  Qed.
  Lemma preds_of_all_total f is : (forall i, In i is -> plain_line sch i) -> 1 <= f -> exists ps, preds_of_all sch f is = Some ps.
  Proof.
    intros P L. destruct f as [|f]; [lia|]. induction is as [|i is IH]; [simpl; eauto|]. cbn [preds_of_all].
    destruct (plain_find sch i (P i (or_introl eq_refl))) as (s & F & _). rewrite F. destruct (IH (fun x Hx => P x (or_intror Hx))) as (qs & ->). cbn [preds_visited]. eauto.
  Qed.
  Hypothesis H_inherit : inherit_ok sch.
  Lemma reach_inherit i j : reach (edge (inherit sch)) i j <-> reach (line_edge sch) i j.
  Proof. split; apply reach_iff; intros a b; [|symmetry]; apply H_inherit. Qed.
  Lemma parents_plain f l ps : parents f (inherit sch) l = Some ps -> forall j, In j (l :: ps) <-> reach (line_edge sch) l j.
  Proof.
    intros H j. destruct (proj2 (parents_spec (inherit sch) l) f ps H) as [_ E]. cbn [In]. rewrite E, reach_inherit. split.
    - intros [<-|[_ X]]; [apply reach_refl|exact X].
    - intro X. destruct (Nat.eq_dec l j) as [->|N]; [left; reflexivity|right; split; [congruence|exact X]].
  Qed.

  (** *** the tables collected *)
  Definition line_table (i : nat) (t : table) : Prop := exists j s, reach (line_edge sch) i j /\ find sch j = Some (EShape s) /\ t = s_table s.
  Lemma collect_all_spec f : forall visited i r, plain_line sch i -> collect_all sch f visited i = Some r -> forall t, In t (fst r) -> line_table i t.
  Proof.
    induction f as [|f IH]; intros visited i r P H; [discriminate|]. cbn [collect_all] in H. destruct (RbeModel.mem i visited).
    { injection H as <-. intros t []. }
    destruct (plain_find sch i P) as (s & F & PS). rewrite F in H.
    match type of H with ?each _ _ _ = _ => set (E := each) in H end.
    assert (X : forall es acc v r, (forall e, In e es -> plain_line sch e) -> E es acc v = Some r ->
      forall t, In t (fst r) -> In t acc \/ exists e, In e es /\ line_table e t).
    { induction es as [|e es IHe]; intros acc v r0 Pe H0 t Ht; cbn [E] in H0; fold E in H0.
      - injection H0 as <-. left. exact Ht.
      - destruct (collect_all sch f v e) as [[ts v']|] eqn:C; [|discriminate].
        destruct (IHe _ _ _ (fun x Hx => Pe x (or_intror Hx)) H0 t Ht) as [A|(e' & He & A)].
        + apply in_app_iff in A. destruct A as [A|A]; [left; exact A|right]. exists e. split; [left; reflexivity|].
          exact (IH _ _ _ (Pe e (or_introl eq_refl)) C t A).
        + right. exists e'. split; [right; exact He|exact A]. }
    intros t Ht. destruct (X _ _ _ _ PS H t Ht) as [[<-|[]]|(e & He & j & s' & R & F' & ->)].
    - exists i, s. split; [apply reach_refl|auto].
    - exists j, s'. split; [|auto]. apply (reach_step _ i e j); [exists s; auto|exact R].
  Qed.
  Lemma collect_all_total i : plain_line sch i -> exists f0, forall f v, f0 <= f -> exists r, collect_all sch f v i = Some r.
  Proof.
    induction 1 as [i s F PS IH].
    assert (A : exists f0, forall f v e, f0 <= f -> In e (s_extends s) -> exists r, collect_all sch f v e = Some r).
    { clear - IH. induction (s_extends s) as [|e es IHe]; [exists 0; intros f v e _ []|]. destruct (IH e (or_introl eq_refl)) as (f1 & H1).
      destruct (IHe (fun x Hx => IH x (or_intror Hx))) as (f2 & H2). exists (f1 + f2). intros f v x L [<-|Hx]; [apply H1; lia|apply H2; [lia|exact Hx]]. }
    destruct A as (f0 & A). exists (S f0). intros [|f] v L; [lia|]. cbn [collect_all]. destruct (RbeModel.mem i v); [eauto|]. rewrite F.
    match goal with |- exists r, ?each _ _ _ = _ => set (E := each) end. specialize (fun v e => A f v e ltac:(lia)). clear - A.
    generalize (i :: v). generalize [s_table s]. induction (s_extends s) as [|e es IHe]; intros acc w; [eexists; reflexivity|].
    destruct (A w e (or_introl eq_refl)) as ([ts w'] & C). cbn [E]. fold E. rewrite C. apply IHe. intros v0 x Hx. apply A. right. exact Hx.
  Qed.
  Lemma collect_buckets_spec f bs : forall v ts, (forall b t, In (Some b, t) bs -> plain_line sch b) -> collect_buckets sch f bs v = Some ts ->
    forall t, In t ts -> In (None, t) bs \/ exists b t', In (Some b, t') bs /\ line_table b t.
  Proof.
    induction bs as [|[[b|] t0] bs IH]; intros v ts P H t Ht; cbn [collect_buckets] in H.
    - injection H as <-. destruct Ht.
    - destruct (collect_all sch f v b) as [[ts1 v']|] eqn:C; [|discriminate]. destruct (collect_buckets sch f bs v') as [ts2|] eqn:E; [|discriminate].
      injection H as <-. apply in_app_iff in Ht. destruct Ht as [Ht|Ht].
      + right. exists b, t0. split; [left; reflexivity|]. exact (collect_all_spec _ _ _ _ (P b t0 (or_introl eq_refl)) C t Ht).
      + destruct (IH v' ts2 (fun b t H => P b t (or_intror H)) E t Ht) as [X|(b' & t' & X & Y)]; [left; right; exact X|right; exists b', t'; split; [right; exact X|exact Y]].
    - destruct (collect_buckets sch f bs v) as [ts2|] eqn:E; [|discriminate]. injection H as <-. destruct Ht as [->|Ht]; [left; left; reflexivity|].
      destruct (IH v ts2 (fun b t H => P b t (or_intror H)) E t Ht) as [X|(b' & t' & X & Y)]; [left; right; exact X|right; exists b', t'; split; [right; exact X|exact Y]].
  Qed.
  Lemma collect_buckets_total bs : (forall b t, In (Some b, t) bs -> plain_line sch b) -> exists f0, forall f v, f0 <= f -> exists ts, collect_buckets sch f bs v = Some ts.
  Proof.
    induction bs as [|[[b|] t0] bs IH]; intros P.
    - exists 0. intros f v _. eexists. reflexivity.
    - destruct (collect_all_total b (P b t0 (or_introl eq_refl))) as (f1 & H1). destruct (IH (fun b t H => P b t (or_intror H))) as (f2 & H2).
      exists (f1 + f2). intros f v L. cbn [collect_buckets]. destruct (H1 f v ltac:(lia)) as ([ts v'] & ->). destruct (H2 f v' ltac:(lia)) as (ts2 & ->). simpl. eauto.
    - destruct (IH (fun b t H => P b t (or_intror H))) as (f2 & H2). exists f2. intros f v L. cbn [collect_buckets]. destruct (H2 f v L) as (ts2 & ->). simpl. eauto.
  Qed.
  Lemma covered_leaf ts bs kv : (forall t, In t ts -> exists l, In (l, t) bs) -> covered eval ts kv = true -> some_leaf eval bs kv = true.
  Proof.
    intros S H. unfold covered in H. apply existsb_exists in H. destruct H as (t & Ht & H). destruct (S t Ht) as (l & Hl). apply existsb_exists.
    exists (l, t). split; [exact Hl|]. unfold matches_any_leaf. apply existsb_exists in H. destruct H as (kc & Hk & H). apply existsb_exists. exists kc.
    split; [exact Hk|]. cbn [snd]. apply andb_true_iff in H. destruct H as [H1 H2]. rewrite H1, H2. rewrite orb_true_r. reflexivity.
  Qed.

  (** *** the parents' own check *)
  Lemma check_main_total n i : plain_line sch i -> exists f0, forall f child, f0 <= f -> exists b, check_main eval sch g f n i child TK = Some b.
  Proof.
    induction 1 as [i s F PS IH].
    assert (A : exists f0, forall f child e, f0 <= f -> In e (s_extends s) -> exists b, check_main eval sch g f n e child TK = Some b).
    { clear - IH. induction (s_extends s) as [|e es IHe]; [exists 0; intros f c e _ []|]. destruct (IH e (or_introl eq_refl)) as (f1 & H1).
      destruct (IHe (fun x Hx => IH x (or_intror Hx))) as (f2 & H2). exists (f1 + f2). intros f c x L [<-|Hx]; [apply H1; lia|apply H2; [lia|exact Hx]]. }
    destruct A as (f0 & A). exists (S f0). intros [|f] child L; [lia|]. cbn [check_main]. rewrite (plain_main sch i s F). cbn [m_main m_ncs m_rest].
    specialize (fun e => A f s e ltac:(lia)).
    match goal with |- exists b, option_map _ (?go (s_extends s)) = _ => set (G := go) end.
    assert (X : exists b, G (s_extends s) = Some b).
    { clear - A. revert A. generalize (s_extends s) as es. intro es. induction es as [|e es IHe]; intro A; [eexists; reflexivity|]. cbn [G]. fold G.
      destruct (A e (or_introl eq_refl)) as (b & ->). destruct (IHe (fun x Hx => A x (or_intror Hx))) as (b' & ->). eauto. }
    destruct X as (b & ->). simpl. eauto.
  Qed.
  Lemma check_mains_total n s es : (forall e, In e es -> plain_line sch e) -> exists f0, forall f, f0 <= f -> exists b, check_mains eval sch g f n es s TK = Some b.
  Proof.
    induction es as [|e es IH]; intro P; [exists 0; intros f _; eexists; reflexivity|].
    destruct (check_main_total n e (P e (or_introl eq_refl))) as (f1 & H1). destruct (IH (fun x Hx => P x (or_intror Hx))) as (f2 & H2).
    exists (f1 + f2). intros f L. cbn [check_mains]. destruct (H1 f s ltac:(lia)) as ([|] & ->); [apply H2; lia|eauto].
  Qed.
  (** the check of one ancestor [s]: its own expression on the arcs that satisfy a condition of it *)
  Definition own_ok (n : nat) (s : shape) : Prop :=
    (forall cd, In cd (t_cond (s_table s)) -> cond_has_ref cd = false) ->
    check_expr_neigh eval (s_table s) (filter (covered eval [s_table s]) (fst (neighs n (s_preds s) g))) TK = true.
  Lemma check_main_true n : forall f i child, plain_line sch i ->
    (forall j s, reach (line_edge sch) i j -> find sch j = Some (EShape s) -> own_ok n s) ->
    forall b, check_main eval sch g f n i child TK = Some b -> b = true.
  Proof.
    induction f as [|f IH]; intros i child P OK b H; [discriminate|]. cbn [check_main] in H. destruct (plain_find sch i P) as (s & F & PS).
    rewrite (plain_main sch i s F) in H. cbn [m_main m_ncs m_rest] in H.
    match type of H with option_map _ (?go (s_extends s)) = _ => set (G := go) in H end.
    assert (X : forall b, G (s_extends s) = Some b -> b = true).
    { assert (Y : forall es, (forall e, In e es -> In e (s_extends s)) -> forall b, G es = Some b -> b = true).
      { induction es as [|e es IHe]; intros S b' H'; cbn [G] in H'; fold G in H'; [congruence|].
        destruct (check_main eval sch g f n e s TK) as [b1|] eqn:E1; [|discriminate]. destruct (G es) as [b2|] eqn:E2; [|discriminate]. injection H' as <-.
        rewrite (IHe (fun x Hx => S x (or_intror Hx)) b2 eq_refl). rewrite andb_true_r. apply (IH e s) in E1; [exact E1|apply PS, S; left; reflexivity|].
        intros j t R Fj. apply (OK j t); [|exact Fj]. apply (reach_step _ i e j); [exists s; split; [exact F|apply S; left; reflexivity]|exact R]. }
      apply Y. auto. }
    destruct (G (s_extends s)) as [b0|] eqn:E; [|discriminate]. injection H as <-. rewrite (X b0 eq_refl). change (all_match eval n []) with true. change (forallb (ref_constraints eval sch n) []) with true. rewrite !andb_true_r.
    destruct (negb (no_one (s_preds s)) && forallb (fun cd => negb (cond_has_ref cd)) (t_cond (s_table s)) && negb (existsb (fun p => RbeModel.mem p (s_preds s)) (s_preds child))) eqn:C; [|reflexivity].
    apply andb_true_iff in C. destruct C as [C _]. apply andb_true_iff in C. destruct C as [_ C]. apply (OK i s (reach_refl _ i) F).
    rewrite forallb_forall in C. intros cd Hcd. apply negb_true_iff. exact (C cd Hcd).
  Qed.
  Lemma check_mains_true n s : forall f es, (forall e, In e es -> plain_line sch e) ->
    (forall e j t, In e es -> reach (line_edge sch) e j -> find sch j = Some (EShape t) -> own_ok n t) ->
    forall b, check_mains eval sch g f n es s TK = Some b -> b = true.
  Proof.
    intros f es. induction es as [|e es IH]; intros P OK b H; cbn [check_mains] in H; [congruence|].
    destruct (check_main eval sch g f n e s TK) as [b1|] eqn:E; [|discriminate].
    pose proof (check_main_true n f e s (P e (or_introl eq_refl)) (fun j t => OK e j t (or_introl eq_refl)) b1 E) as ->.
    apply (IH (fun x Hx => P x (or_intror Hx)) (fun x j t Hx => OK x j t (or_intror Hx)) b H).
  Qed.

  Variable l : nat.
  Variable s : shape.
  Hypothesis H_plain : plainly_extended sch l s.

  Lemma extends_plain p : In p (s_extends s) -> plain_line sch p.
  Proof.
    intro Hp. destruct H_plain as (F & P & _). destruct (plain_find sch l P) as (s' & F' & P'). rewrite F in F'. injection F' as <-. exact (P' p Hp).
  Qed.
  Lemma reach_split j : reach (line_edge sch) l j <-> j = l \/ beneath sch (s_extends s) j.
  Proof.
    destruct H_plain as (F & _). split.
    - intro R. inversion R as [|? k ? (s' & F' & Hk) R']; subst; [left; reflexivity|right]. exists k. split; [congruence|exact R'].
    - intros [->|(k & Hk & R)]; [apply reach_refl|]. exact (reach_step _ l k j (ex_intro _ s (conj F Hk)) R).
  Qed.

  Notation whole_check f n := (fun i => check_constraint eval external border corder sch g f n i TK).
  Lemma collected_in_buckets f anc ts : (forall x, In x anc <-> beneath sch (s_extends s) x) -> (forall a, In a anc -> plain_line sch a) ->
    collect_buckets sch f (border ((None, s_table s) :: flat_map shape_bucket anc)) [] = Some ts ->
    forall t, In t ts -> exists lb, In (lb, t) (border ((None, s_table s) :: flat_map shape_bucket anc)).
  Proof.
    intros EA AP CB. set (bs := border ((None, s_table s) :: flat_map shape_bucket anc)) in *.
    assert (BI : forall lb t, In (lb, t) bs <-> (lb = None /\ t = s_table s) \/ exists b' s', lb = Some b' /\ In b' anc /\ find sch b' = Some (EShape s') /\ t = s_table s').
    { intros lb t. unfold bs. split.
      - intro Z. apply (Permutation_in _ (H_border _)) in Z. destruct Z as [Z|Z]; [injection Z as <- <-; left; auto|right].
        apply in_flat_map in Z. destruct Z as (b' & Hb & Z). unfold shape_bucket in Z. destruct (find sch b') as [[]|] eqn:Fb; try solve [destruct Z].
        destruct Z as [Z|[]]. injection Z as <- <-. exists b', s0. auto.
      - intro Z. apply (Permutation_in _ (Permutation_sym (H_border _))). destruct Z as [[-> ->]|(b' & s' & -> & Hb & Fb & ->)]; [left; reflexivity|right].
        apply in_flat_map. exists b'. split; [exact Hb|]. unfold shape_bucket. rewrite Fb. left. reflexivity. }
    intros t Ht. destruct (collect_buckets_spec f bs [] ts) with (t := t) as [Z|(b' & t' & Z & j & s' & R & Fj & ->)]; [|exact CB|exact Ht|exists None; exact Z|].
    - intros b' t' Z. apply BI in Z. destruct Z as [[Z _]|(b'' & s' & E & Hb & _)]; [discriminate|]. injection E as <-. exact (AP b' Hb).
    - exists (Some j). apply BI. right. exists j, s'. split; [reflexivity|]. split; [|auto]. apply EA. apply BI in Z.
      destruct Z as [[Z _]|(b'' & s'' & E & Hb & _)]; [discriminate|]. injection E as <-. apply EA in Hb. destruct Hb as (i & Hi & Ri). exists i. split; [exact Hi|].
      clear - Ri R. induction Ri as [|a c d E R' IHR]; [exact R|exact (reach_step _ a c j E (IHR R))].
  Qed.
  Lemma single_total n : exists f0, forall f, f0 <= f -> exists b, check_single eval border corder sch g f l n s TK = Some b.
  Proof.
    destruct H_plain as (F & P & EX). destruct (closure_total sch (s_extends s) extends_plain) as (f1 & H1). destruct (H1 f1 (le_n _)) as (anc & EC1).
    assert (EC : forall f, f1 <= f -> extends_closure sch f (s_extends s) = Some anc) by (intros f L; exact (closure_le sch f1 f _ _ _ L EC1)).
    destruct (extends_closure_spec sch f1 _ _ extends_plain EC1) as [NA EA].
    assert (AP : forall a, In a anc -> plain_line sch a).
    { intros a Ha. apply EA in Ha. destruct Ha as (i & Hi & R). exact (plain_reach sch i a R (extends_plain i Hi)). }
    destruct (ancestor_buckets_total n anc AP) as (f2 & H2). destruct (check_mains_total n s (s_extends s) extends_plain) as (f3 & H3).
    set (bs := border ((None, s_table s) :: flat_map shape_bucket anc)).
    assert (BI : forall lb t, In (lb, t) bs -> (lb = None /\ t = s_table s) \/ exists b' s', lb = Some b' /\ In b' anc /\ find sch b' = Some (EShape s') /\ t = s_table s').
    { intros lb t Z. apply (Permutation_in _ (H_border _)) in Z. destruct Z as [Z|Z]; [injection Z as <- <-; left; auto|right].
      apply in_flat_map in Z. destruct Z as (b' & Hb & Z). unfold shape_bucket in Z. destruct (find sch b') as [[]|] eqn:Fb; try solve [destruct Z].
      destruct Z as [Z|[]]. injection Z as <- <-. exists b', s0. auto. }
    assert (BP : forall b t, In (Some b, t) bs -> plain_line sch b).
    { intros b' t' Z. apply BI in Z. destruct Z as [[Z _]|(b'' & s' & E & Hb & _)]; [discriminate|]. injection E as <-. exact (AP b' Hb). }
    destruct (collect_buckets_total bs BP) as (f4 & H4).
    assert (PE : exists ps, forall f, 1 <= f -> preds_extends sch f l = Some ps).
    { unfold preds_extends. rewrite F. destruct (parents_enough (inherit sch) l) as (par & E). rewrite E. pose proof (parents_plain _ l par E) as RP.
      assert (PL : forall i, In i (l :: par) -> plain_line sch i) by (intros i Hi; apply RP in Hi; exact (plain_reach sch l i Hi P)).
      clear - PL. revert PL. generalize (l :: par) as is. intro is. induction is as [|i is IH]; intro PL; [exists []; reflexivity|].
      destruct (IH (fun x Hx => PL x (or_intror Hx))) as (qs & Q). destruct (plain_find sch i (PL i (or_introl eq_refl))) as (si & Fi & _).
      exists (s_preds si ++ qs). intros [|f] L; [lia|]. cbn [preds_of_all]. rewrite Fi, (Q (S f) L). reflexivity. }
    destruct PE as (ps & PE). destruct (neighs n (push_all ps (s_extra s)) g) as [vals rem] eqn:NE.
    destruct (partitions_total eval corder H_corder bs (filter (fun kv => some_leaf eval bs kv || negb (RbeModel.mem (fst kv) (s_extra s))) vals)) as (f5 & parts & H5).
    { intros [lb t] Hb. cbn [snd]. apply BI in Hb. destruct Hb as [[_ ->]|(b' & s' & _ & Hb & Fb & ->)].
      + apply (EX l s (reach_refl _ l) F).
      + apply (EX b' s'); [|exact Fb]. apply reach_split. right. apply EA. exact Hb. }
    exists (S (f1 + f2 + f3 + f4 + f5)). intros f L. unfold check_single. rewrite (PE f ltac:(lia)), NE.
    destruct (s_closed s && negb (no_one rem)); [eauto|]. rewrite (EC f ltac:(lia)). destruct (H2 f ltac:(lia)) as (r & AB). rewrite AB.
    rewrite (ancestor_buckets_spec f n anc AP r AB). fold bs. destruct (H4 f [] ltac:(lia)) as (ts & CB). rewrite CB.
    destruct (H3 f ltac:(lia)) as ([|] & ->); [|eauto].
    assert (VS : filter (fun kv => some_leaf eval bs kv || (negb (RbeModel.mem (fst kv) (s_extra s)) && negb (covered eval ts kv))) vals =
                 filter (fun kv => some_leaf eval bs kv || negb (RbeModel.mem (fst kv) (s_extra s))) vals).
    { apply filter_ext. intro kv. pose proof (covered_leaf ts bs kv (collected_in_buckets f anc ts EA AP CB)) as C. destruct (some_leaf eval bs kv); [reflexivity|]. cbn [orb].
      destruct (covered eval ts kv); [discriminate (C eq_refl)|]. rewrite andb_true_r. reflexivity. }
    rewrite VS. rewrite (H5 f ltac:(lia)).
    destruct (negb (forallb (fun b0 : option nat * table => feasible_neighs eval (snd b0)
       (filter (fun kv : nat * nat => some_leaf eval bs kv || negb (RbeModel.mem (fst kv) (s_extra s))) vals)) bs)); eauto.
  Qed.

  (** the path is the check of the ancestors' own expressions and of one selection *)
  Lemma single_selection f n b anc : extends_closure sch f (s_extends s) = Some anc -> check_single eval border corder sch g f l n s TK = Some b ->
    match b with
    | true => check_mains eval sch g f n (s_extends s) s TK = Some true /\
              check_selection eval border corder sch g f (whole_check f n) n s (mkAlt anc []) TK = Some true
    | false => check_mains eval sch g f n (s_extends s) s TK = Some false \/
               check_selection eval border corder sch g f (whole_check f n) n s (mkAlt anc []) TK = Some false
    end.
  Proof.
    intros EC H. unfold check_single in H. destruct (extends_closure_spec sch f _ _ extends_plain EC) as [NA EA].
    destruct (preds_extends sch f l) as [ps|] eqn:PE; [|discriminate].
    assert (PP : forall k, In k (push_all ps (s_extra s)) <-> In k (selection_preds sch s (mkAlt anc []))).
    { intro k. destruct H_plain as (F & P & X). unfold preds_extends in PE. rewrite F in PE.
      destruct (parents (S (S (length (inherit sch)))) (inherit sch) l) as [par|] eqn:PAR; [|discriminate].
      pose proof (parents_plain _ l par PAR) as RP.
      assert (PL : forall i, In i (l :: par) -> plain_line sch i) by (intros i Hi; apply RP in Hi; exact (plain_reach sch l i Hi P)).
      unfold selection_preds. rewrite !push_all_In, (preds_of_all_spec f _ ps PL PE k). cbn [a_buckets].
      assert (Y : forall l0 acc, In k (fold_left (fun acc b => match find sch b with Some (EShape t) => push_all acc (s_preds t) | _ => acc end) l0 acc) <->
        In k acc \/ exists b t, In b l0 /\ find sch b = Some (EShape t) /\ In k (s_preds t)).
      { induction l0 as [|b' l0 IH]; intro acc; cbn [fold_left]; [split; [auto|intros [Z|(b' & t & [] & _)]; exact Z]|].
        rewrite IH. split.
        - intros [Z|(b'' & t & H1 & H2 & H3)]; [|right; exists b'', t; split; [right; exact H1|auto]].
          destruct (find sch b') as [[]|] eqn:Fb; try (left; exact Z). apply push_all_In in Z. destruct Z as [Z|Z]; [left; exact Z|right].
          exists b', s0. split; [left; reflexivity|auto].
        - intros [Z|(b'' & t & [<-|H1] & H2 & H3)].
          + left. destruct (find sch b') as [[]|]; try exact Z. apply push_all_In. left. exact Z.
          + left. rewrite H2. apply push_all_In. right. exact H3.
          + right. exists b'', t. auto. }
      rewrite Y. split.
      - intros [(i & t & Hi & Fi & Z)|Z]; [left|right; exact Z]. apply RP, reach_split in Hi. destruct Hi as [->|Hi]; [left; congruence|].
        right. exists i, t. split; [apply EA; exact Hi|auto].
      - intros [[Z|(i & t & Hi & Fi & Z)]|Z]; [left|left|right; exact Z].
        + exists l, s. split; [left; reflexivity|auto].
        + exists i, t. split; [|auto]. apply RP, reach_split. right. apply EA. exact Hi. }
    rewrite (neighs_ext n _ _ g PP) in H. unfold check_selection. destruct (neighs n (selection_preds sch s (mkAlt anc [])) g) as [vals rem].
    destruct (s_closed s && negb (no_one rem)). { injection H as <-. right. reflexivity. }
    rewrite EC in H. assert (AP : forall a, In a anc -> plain_line sch a).
    { intros a Ha. apply EA in Ha. destruct Ha as (i & Hi & R). exact (plain_reach sch i a R (extends_plain i Hi)). }
    destruct (ancestor_buckets eval sch f n anc) as [r|] eqn:AB; [|discriminate]. rewrite (ancestor_buckets_spec f n anc AP r AB) in H.
    change ((None, s_table s) :: flat_map shape_bucket anc) with (selection_buckets sch s (mkAlt anc [])) in H.
    set (bs := border (selection_buckets sch s (mkAlt anc []))) in *.
    destruct (collect_buckets sch f bs []) as [ts|] eqn:CB; [|discriminate].
    pose proof (collected_in_buckets f anc ts EA AP CB) as TB.
    assert (VS : filter (fun kv => some_leaf eval bs kv || (negb (RbeModel.mem (fst kv) (s_extra s)) && negb (covered eval ts kv))) vals =
                 filter (fun kv => some_leaf eval bs kv || negb (RbeModel.mem (fst kv) (s_extra s))) vals).
    { apply filter_ext. intro kv. pose proof (covered_leaf ts bs kv TB) as C. destruct (some_leaf eval bs kv); [reflexivity|]. cbn [orb].
      destruct (covered eval ts kv); [discriminate (C eq_refl)|]. rewrite andb_true_r. reflexivity. }
    rewrite VS in H. destruct (check_mains eval sch g f n (s_extends s) s TK) as [[|]|]; [| |discriminate].
    2:{ injection H as <-. left. reflexivity. }
    cbn [a_constraints split_constraints].
    destruct (negb (forallb (fun b0 : option nat * table => feasible_neighs eval (snd b0)
       (filter (fun kv : nat * nat => some_leaf eval bs kv || negb (RbeModel.mem (fst kv) (s_extra s))) vals)) bs)).
    { injection H as <-. right. reflexivity. }
    destruct (partitions eval corder f bs (filter (fun kv : nat * nat => some_leaf eval bs kv || negb (RbeModel.mem (fst kv) (s_extra s))) vals)) as [parts|]; [|discriminate].
    injection H as <-. destruct (existsb (partition_ok eval TK bs []) parts); [split; reflexivity|right; reflexivity].
  Qed.

  Lemma plain_acyclic i : plain_line sch i -> forall k, line_edge sch i k -> reach (line_edge sch) k i -> False.
  Proof.
    induction 1 as [i s0 F _ IH]. intros k (s' & F' & Hk) R. rewrite F in F'. injection F' as <-.
    assert (RK : forall x y, reach (line_edge sch) x y -> line_edge sch y k -> reach (line_edge sch) x k).
    { intros x y R0 E. induction R0 as [x|x z y E' R0 IHR]; [exact (reach_step _ x k k E (reach_refl _ k))|]. exact (reach_step _ x z k E' (IHR E)). }
    assert (EK : line_edge sch i k) by (exists s0; auto). inversion R as [|? z ? E R']; subst.
    - exact (IH i Hk i EK (reach_refl _ i)).
    - exact (IH k Hk z E (RK z i R' EK)).
  Qed.
  Lemma beneath_not_self : ~ beneath sch (s_extends s) l.
  Proof. intros (k & Hk & R). destruct H_plain as (F & P & _). exact (plain_acyclic l P k (ex_intro _ s (conj F Hk)) R). Qed.

  Lemma NoDup_part {A} (part : nat -> list A) ls b : NoDup (flat_map part ls) -> In b ls -> NoDup (part b).
  Proof.
    intros N I. induction ls as [|x ls IH]; [destruct I|]. cbn [flat_map] in N. apply NoDup_app_elim in N. destruct N as (N1 & N2 & _).
    destruct I as [->|I]; [exact N1|exact (IH N2 I)].
  Qed.

  Lemma holds_own_ok n : apart sch l -> extends_holds eval external sch g T n s ->
    forall j t, beneath sch (s_extends s) j -> find sch j = Some (EShape t) -> own_ok n t.
  Proof.
    intros AP (B & K & R & own & part & rest & NB & AO & APM & RST & _) j t Bj Fj NR.
    destruct (proj2 (plain_resolves_all sch _ extends_plain) B K R) as [_ EB].
    assert (HJ : In j B) by (apply EB; exact Bj). assert (RJ : reach (line_edge sch) l j) by (apply reach_split; right; exact Bj).
    destruct H_plain as (F & P & EX). pose proof (EX j t RJ Fj) as (U & O & PR).
    assert (AM : all_matched eval T (s_table t) (part j)) by (apply APM; [exact HJ|exists t; auto]).
    apply (check_expr_neigh_spec eval T (s_table t) (rs_rbe (t_rbe (s_table t)))); [exact U|exact O| |].
    { intros [k v] Hkv. apply filter_In in Hkv. destruct Hkv as [Hkv _]. apply neighs_In in Hkv. apply PR, Hkv. }
    apply (all_matched_perm eval T _ (part j)); [|exact AM]. destruct NB as [NN NB].
    assert (IS : forall kv, In kv (part j) -> In kv (own ++ shares part B ++ rest)).
    { intros kv H. apply in_app_iff. right. apply in_app_iff. left. apply in_flat_map. exists j. split; [apply nodup_In; exact HJ|exact H]. }
    apply NoDup_Permutation.
    - apply NoDup_app_elim in NN. destruct NN as (_ & NN & _). apply NoDup_app_elim in NN. destruct NN as (NN & _). unfold shares in NN.
      apply (NoDup_part part _ j NN). apply nodup_In. exact HJ.
    - apply NoDup_filter, neighs_NoDup. exact H_g.
    - intros [k v]. rewrite filter_In, neighs_In. split.
      + intro H. destruct (all_match_arc _ _ _ _ AM _ H) as (c & cd & C & SA & _). cbn [fst snd] in C, SA. split; [split|].
        * apply PR. exists c, cd. exact C.
        * apply NB. apply IS. exact H.
        * unfold covered. cbn [existsb]. rewrite orb_false_r. apply existsb_exists. exists (k, cd). split; [exact (In_combine_component _ _ _ _ C)|].
          cbn [fst snd]. rewrite Nat.eqb_refl. cbn [andb]. apply cond_sat. exact SA.
      + intros [[MP H] CV]. apply PR in MP. apply NB in H. unfold covered in CV. cbn [existsb] in CV. rewrite orb_false_r in CV.
        apply existsb_exists in CV. destruct CV as ([k' cd] & HC & CV). cbn [fst snd] in CV. apply andb_true_iff in CV. destruct CV as [CV1 CV2].
        apply Nat.eqb_eq in CV1. subst k'. apply cond_sat in CV2. apply combine_component in HC. destruct HC as (c & C).
        apply in_app_iff in H. destruct H as [H|H].
        * exfalso. destruct (all_match_arc _ _ _ _ AO _ H) as (c' & cd' & C' & _). cbn [fst] in C'.
          assert (l = j) by (apply (AP l j s t k (reach_refl _ l) RJ F Fj); [exists c', cd'; exact C'|exact MP]). subst j. exact (beneath_not_self Bj).
        * apply in_app_iff in H. destruct H as [H|H].
          -- apply in_flat_map in H. destruct H as (b & Hb & H). apply nodup_In in Hb. pose proof (proj1 (EB b) Hb) as Bb.
             assert (Rb : reach (line_edge sch) l b) by (apply reach_split; right; exact Bb).
             destruct (plain_find sch b (plain_reach sch l b Rb P)) as (tb & Fb & _).
             destruct (all_match_arc _ _ _ _ (APM b (s_table tb) Hb (ex_intro _ tb (conj Fb eq_refl))) _ H) as (c' & cd' & C' & _). cbn [fst] in C'.
             assert (b = j) as <-; [|exact H]. apply (AP b j tb t k Rb RJ Fb Fj); [exists c', cd'; exact C'|exact MP].
          -- exfalso. destruct (RST k v H) as [R1 _]. destruct R1 as [_ R1].
             ++ right. exists j, (s_table t). split; [exact HJ|]. split; [exists t; auto|exact MP].
             ++ destruct (R1 (s_table t) c cd) as [Z _]; [right; exists j; split; [exact HJ|exists t; auto]|exact C|exact (Z CV2)].
  Qed.

  Lemma plain_one f : forall path i, plain_line sch i -> length (alternatives_rec sch f path i) = 1.
  Proof.
    induction f as [|f IH]; intros path i P; [reflexivity|]. cbn [alternatives_rec]. destruct (plain_find sch i P) as (s0 & F & PS).
    assert (dereference sch i = i) as ->.
    { unfold dereference. cbn [deref_loop]. change (RbeModel.mem i []) with false. cbn iota. rewrite F. reflexivity. }
    destruct (RbeModel.mem i path); [reflexivity|]. rewrite F.
    assert (X : forall ps acc, (forall p, In p ps -> plain_line sch p) -> length acc = 1 ->
      length (fold_left (fun acc p => cross_merge acc (alternatives_rec sch f (i :: path) p)) ps acc) = 1).
    { induction ps as [|p ps IHp]; intros acc Pp La; [exact La|]. cbn [fold_left]. apply IHp; [intros q Hq; apply Pp; right; exact Hq|].
      unfold cross_merge. destruct acc as [|a [|]]; try discriminate. cbn [flat_map]. rewrite app_nil_r, map_length. apply IH. apply Pp. left. reflexivity. }
    apply X; [exact PS|reflexivity].
  Qed.
  Lemma single_path f n : check_shape_extends eval external border corder sch g f l n s TK = check_single eval border corder sch g f l n s TK.
  Proof.
    unfold check_shape_extends. assert (existsb (fun a => 1 <? length a) (map (extend_alternatives sch) (s_extends s)) = false) as ->; [|reflexivity].
    apply not_true_iff_false. rewrite existsb_exists. intros (a & Ha & H). apply in_map_iff in Ha. destruct Ha as (p & <- & Hp).
    unfold extend_alternatives in H. rewrite (plain_one _ _ p (extends_plain p Hp)) in H. discriminate.
  Qed.

  (** everything about the selection *)
  Lemma plain_selection f n b anc : extends_closure sch f (s_extends s) = Some anc ->
    check_selection eval border corder sch g f (whole_check f n) n s (mkAlt anc []) TK = Some b ->
    (b = true <-> extends_holds eval external sch g T n s).
  Proof.
    intros EC H. destruct (extends_closure_spec sch f _ _ extends_plain EC) as [NA EA]. destruct (plain_resolves_all sch _ extends_plain) as [(B & R) U].
    destruct H_plain as (F & P & EX).
    assert (SPEC : forall B K, resolves_all sch (s_extends s) B K -> (b = true <-> shared_out eval external sch g T n s B K)).
    { intros B' K' R'. destruct (U B' K' R') as [-> EB]. destruct (proj2 (resolves_facts sch) _ _ _ R') as [F1 F2].
      apply (selection_spec eval external border corder sch g T n H_g H_border H_corder s (mkAlt anc []) B' []) with (f := f); try assumption.
      - split; [split; [exact NA|split; [constructor|intros c []]]|]. split; [intro x; cbn [a_buckets]; rewrite EA, EB; reflexivity|].
        split; [intro; reflexivity|intros x []].
      - exact (EX l s (reach_refl _ l) F).
      - intros b' t Hb Fb. apply (EX b' t); [|exact Fb]. apply reach_split. right. apply EB. exact Hb.
      - intros c S' [].
      - intros c S' S'' []. }
    split.
    - intro E. exists B, []. split; [exact R|]. apply (SPEC B [] R). exact E.
    - intros (B' & K' & R' & SO). apply (SPEC B' K' R'). exact SO.
  Qed.

  Lemma closure_of_single f n b : check_single eval border corder sch g f l n s TK = Some b ->
    (exists anc, extends_closure sch f (s_extends s) = Some anc) \/ (b = false /\ ~ extends_holds eval external sch g T n s).
  Proof.
    intro H. destruct (extends_closure sch f (s_extends s)) as [anc|] eqn:EC; [left; eauto|right].
    unfold check_single in H. destruct (preds_extends sch f l) as [ps|] eqn:PE; [|discriminate].
    destruct (closure_total sch (s_extends s) extends_plain) as (f1 & H1). destruct (H1 f1 (le_n _)) as (anc & EC1).
    pose proof (reminder_In n (push_all ps (s_extra s)) g) as RI. destruct (neighs n (push_all ps (s_extra s)) g) as [vals rem].
    destruct (s_closed s && negb (no_one rem)) eqn:CL; [|rewrite EC in H; discriminate]. injection H as <-. split; [reflexivity|].
    apply andb_true_iff in CL. destruct CL as [CL1 CL2]. destruct rem as [|p rem]; [discriminate|]. destruct (proj1 (RI p) (or_introl eq_refl)) as (NP & v & Hv).
    intros (B & K & R & own & part & rest & [NN NB] & AO & APM & RST & _). destruct (proj2 (plain_resolves_all sch _ extends_plain) B K R) as [_ EB].
    destruct H_plain as (F & P & EX).
    assert (MP : forall j t, reach (line_edge sch) l j -> find sch j = Some (EShape t) -> mentioned (s_table t) (direct p) -> False).
    { intros j t Rj Fj M. apply NP. apply push_all_In. left. unfold preds_extends in PE. rewrite F in PE.
      destruct (parents (S (S (length (inherit sch)))) (inherit sch) l) as [par|] eqn:PAR; [|discriminate]. pose proof (parents_plain _ l par PAR) as RP.
      assert (PL : forall i, In i (l :: par) -> plain_line sch i) by (intros i Hi; apply RP in Hi; exact (plain_reach sch l i Hi P)).
      apply (preds_of_all_spec f _ ps PL PE). exists j, t. split; [apply RP; exact Rj|]. split; [exact Fj|]. apply (EX j t Rj Fj). exact M. }
    assert (SM : ~ some_mention sch s B (direct p)).
    { intros [M|(b & t & Hb & (tb & Fb & <-) & M)]; [exact (MP l s (reach_refl _ l) F M)|]. apply (MP b tb); [apply reach_split; right; apply EB; exact Hb|exact Fb|exact M]. }
    assert (IA : In (direct p, v) (own ++ shares part B ++ rest)) by (apply NB; exists p; left; auto).
    apply in_app_iff in IA. destruct IA as [IA|IA].
    - destruct (all_match_arc _ _ _ _ AO _ IA) as (c & cd & C & _). apply SM. left. exists c, cd. exact C.
    - apply in_app_iff in IA. destruct IA as [IA|IA].
      + apply in_flat_map in IA. destruct IA as (b & Hb & IA). apply nodup_In in Hb. destruct (proj1 (proj2 (resolves_facts sch) _ _ _ R) b Hb) as (tb & Fb).
        destruct (all_match_arc _ _ _ _ (APM b (s_table tb) Hb (ex_intro _ tb (conj Fb eq_refl))) _ IA) as (c & cd & C & _).
        apply SM. right. exists b, (s_table tb). split; [exact Hb|]. split; [exists tb; auto|]. exists c, cd. exact C.
      + destruct (RST _ _ IA) as [_ R2]. apply NP. apply push_all_In. right. apply R2; [exact SM|apply is_direct_direct|exact CL1].
  Qed.

  Theorem plain_right n :
    (forall f, check_shape_extends eval external border corder sch g f l n s TK = Some true -> extends_holds eval external sch g T n s) /\
    (apart sch l -> forall f b, check_shape_extends eval external border corder sch g f l n s TK = Some b -> (b = true <-> extends_holds eval external sch g T n s)) /\
    (exists f0, forall f, f0 <= f -> exists b, check_shape_extends eval external border corder sch g f l n s TK = Some b).
  Proof.
    assert (SOUND : forall f, check_single eval border corder sch g f l n s TK = Some true -> extends_holds eval external sch g T n s).
    { intros f H. destruct (closure_of_single f n true H) as [(anc & EC)|[E _]]; [|discriminate].
      destruct (single_selection f n true anc EC H) as [_ C]. exact (proj1 (plain_selection f n true anc EC C) eq_refl). }
    split; [intros f H; rewrite single_path in H; exact (SOUND f H)|]. split.
    - intros AP f b H. rewrite single_path in H. split; [intros ->; exact (SOUND f H)|]. intro EH. destruct b; [reflexivity|exfalso].
      destruct (closure_of_single f n false H) as [(anc & EC)|[_ N]]; [|exact (N EH)].
      destruct (single_selection f n false anc EC H) as [C|C].
      + assert (false = true); [|discriminate]. apply (check_mains_true n s f (s_extends s) extends_plain) with (b := false); [|exact C].
        intros e j t He R Fj. apply (holds_own_ok n AP EH j t); [exists e; auto|exact Fj].
      + apply (plain_selection f n false anc EC C) in EH. discriminate.
    - destruct (single_total n) as (f0 & H). exists f0. intros f L. rewrite single_path. exact (H f L).
  Qed.
End Single.
