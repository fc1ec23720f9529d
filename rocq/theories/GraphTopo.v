(** [toposort] succeeds exactly on acyclic graphs. *)
From Coq Require Import List Arith Bool Lia Permutation.
Import ListNotations.
From Verif Require Import GraphModel GraphSpec GraphLemmas.

Section Topo.
  Variable succ pred : nat -> list nat.
  Let E (a b : nat) : Prop := In b (succ a).
  Hypothesis dual : forall a b, In a (pred b) <-> E a b.

  Definition acyclic : Prop := forall a, ~ on_cycle E a.

  Record inv (stack disc fin : list nat) : Prop := {
    inv_fin : forall x, In x fin -> In x disc;
    inv_nodup : NoDup fin;
    inv_grey : forall n, In n disc -> ~ In n fin -> In n stack;
    inv_above : forall above n below, stack = above ++ n :: below -> ~ In n above -> In n disc -> ~ In n fin ->
      (forall x, In x above -> reach E n x) /\ (forall s, E n s -> In s disc \/ In s above);
    inv_order : acyclic -> forall f1 a f2, fin = f1 ++ a :: f2 -> forall s, E a s -> In s f2;
    inv_self : forall n, In n disc -> ~ E n n }.

  Lemma first_occurrence (x : nat) l : In x l -> exists above below, l = above ++ x :: below /\ ~ In x above.
  Proof.
    induction l as [|y l IH]; [intros []|]. intro H. destruct (Nat.eq_dec y x) as [->|NE].
    - exists [], l. split; [reflexivity|intros []].
    - destruct H as [H|H]; [contradiction|]. destruct (IH H) as (above & below & -> & N).
      exists (y :: above), below. split; [reflexivity|]. intros [->|K]; [apply NE; reflexivity|exact (N K)].
  Qed.

  (** popping a node that is already finished *)
  Lemma inv_pop n st disc fin : inv (n :: st) disc fin -> In n fin -> inv st disc fin.
  Proof.
    intros [I1 I2 I3 I4 I5 I6] Hn. constructor; auto.
    - intros x Hx Nx. destruct (I3 x Hx Nx) as [->|H]; [contradiction|exact H].
    - intros above x below -> Na Hd Nf.
      assert (NE : x <> n) by (intros ->; contradiction).
      destruct (I4 (n :: above) x below eq_refl) as [R S]; auto.
      { intros [->|K]; [apply NE; reflexivity|exact (Na K)]. }
      split; [intros y Hy; apply R; right; exact Hy|].
      intros s Hs. destruct (S s Hs) as [K|[->|K]]; [left; exact K| |right; exact K]. left. apply I1. exact Hn.
  Qed.

  (** finishing the top node *)
  Lemma inv_finish n st disc fin : inv (n :: st) disc fin -> In n disc -> ~ In n fin -> inv st disc (n :: fin).
  Proof.
    intros [I1 I2 I3 I4 I5 I6] Hd Hn. constructor; auto.
    - intros x [<-|H]; auto.
    - constructor; assumption.
    - intros x Hx Nx. destruct (I3 x Hx) as [->|H]; [intro K; apply Nx; right; exact K| |exact H].
      exfalso. apply Nx. left. reflexivity.
    - intros above x below -> Na Hx Nf.
      assert (NE : x <> n) by (intros ->; apply Nf; left; reflexivity).
      destruct (I4 (n :: above) x below eq_refl) as [R S]; auto.
      { intros [->|K]; [apply NE; reflexivity|exact (Na K)]. }
      { intro K. apply Nf. right. exact K. }
      split; [intros y Hy; apply R; right; exact Hy|].
      intros s Hs. destruct (S s Hs) as [K|[->|K]]; [left; exact K| |right; exact K]. left. exact Hd.
    - intros AC f1 a f2 Ef s Hs. destruct f1 as [|y f1].
      + simpl in Ef. injection Ef as Ea Ef2. subst a f2.
        destruct (I4 [] n st eq_refl (fun K => K) Hd Hn) as [_ S].
        destruct (S s Hs) as [K|[]].
        destruct (in_dec Nat.eq_dec s fin) as [F|F]; [exact F|]. exfalso.
        destruct (first_occurrence s (n :: st) (I3 s K F)) as (above & below & Es & Ns).
        destruct above as [|z above].
        * simpl in Es. injection Es as En _. subst s. exact (I6 n Hd Hs).
        * simpl in Es. injection Es as Ez Est. subst z.
          destruct (I4 (n :: above) s below ltac:(rewrite Est; reflexivity) Ns K F) as [R _].
          apply (AC n). exists s. split; [exact Hs|]. apply R. left. reflexivity.
      + simpl in Ef. injection Ef as _ Ef2. exact (I5 AC f1 a f2 Ef2 s Hs).
  Qed.

  (** discovering the top node *)
  Lemma app_in_split (l1 l2 above below : list nat) (n : nat) :
    l1 ++ l2 = above ++ n :: below ->
    (exists b1, l1 = above ++ n :: b1) \/ (exists a2, above = l1 ++ a2 /\ l2 = a2 ++ n :: below).
  Proof.
    revert above. induction l1 as [|x l1 IH]; intros above H.
    - right. exists above. auto.
    - destruct above as [|y above]; simpl in H; injection H as -> H.
      + left. exists l1. reflexivity.
      + destruct (IH above H) as [(b1 & ->)|(a2 & -> & ->)]; [left; exists b1; reflexivity|right; exists a2; auto].
  Qed.

  Lemma inv_discover n st disc fin : inv (n :: st) disc fin -> ~ In n disc -> ~ E n n ->
    inv (rev (filter (fun s => negb (mem s (n :: disc))) (succ n)) ++ n :: st) (n :: disc) fin.
  Proof.
    intros [I1 I2 I3 I4 I5 I6] Hn Self.
    set (ws := rev (filter (fun s => negb (mem s (n :: disc))) (succ n))).
    assert (HW : forall x, In x ws <-> E n x /\ ~ In x (n :: disc)).
    { intro x. unfold ws. rewrite <- in_rev, filter_In, negb_true_iff, mem_not_In. reflexivity. }
    constructor; auto.
    - intros x Hx. right. exact (I1 x Hx).
    - intros x [<-|Hx] Nx.
      + apply in_or_app. right. left. reflexivity.
      + apply in_or_app. right. exact (I3 x Hx Nx).
    - intros above x below Es Na Hx Nf. apply app_in_split in Es. destruct Es as [(b1 & Ew)|(a2 & -> & Es)].
      + exfalso. assert (In x ws) as K by (rewrite Ew; apply in_or_app; right; left; reflexivity).
        apply HW in K. exact (proj2 K Hx).
      + destruct a2 as [|y a2]; simpl in Es; injection Es as Ey Es.
        * subst x. rewrite app_nil_r. split.
          -- intros y Hy. apply HW in Hy. apply reach_one. apply Hy.
          -- intros s Hs. destruct (mem s (n :: disc)) eqn:M.
             ++ left. apply mem_In. exact M.
             ++ right. apply HW. split; [exact Hs|]. apply mem_not_In. exact M.
        * subst y. assert (NE : x <> n) by (intros ->; apply Na; apply in_or_app; right; left; reflexivity).
          destruct Hx as [Hx|Hx]; [congruence|].
          destruct (I4 (n :: a2) x below ltac:(rewrite Es; reflexivity)) as [R S]; auto.
          { intro K. apply Na. apply in_or_app. right. exact K. }
          split.
          -- intros y Hy. apply in_app_or in Hy. destruct Hy as [Hy|Hy]; [|apply R; exact Hy].
             apply HW in Hy. apply (reach_trans E x n y); [apply R; left; reflexivity|]. apply reach_one. apply Hy.
          -- intros s Hs. destruct (S s Hs) as [K|K]; [left; right; exact K|]. right. apply in_or_app. right. exact K.
    - intros x [<-|Hx]; auto.
  Qed.

  Lemma finish_spec fuel : forall stack disc fin r, inv stack disc fin -> finish fuel succ stack disc fin = Some r ->
    match r with
    | inl (disc', fin') => inv [] disc' fin' /\ (forall x, In x disc -> In x disc') /\ (forall x, In x stack -> In x disc') /\
        (forall P : nat -> Prop, (forall x, In x stack -> P x) -> (forall x, In x disc -> P x) ->
           (forall x y, P x -> E x y -> P y) -> forall x, In x disc' -> P x)
    | inr _ => exists n, E n n
    end.
  Proof.
    induction fuel as [|f IH]; intros stack disc fin r I H; [discriminate|]. cbn [finish] in H.
    destruct stack as [|n st].
    - injection H as <-. split; [exact I|]. split; [auto|]. split; [intros x []|]. auto.
    - destruct (mem n disc) eqn:M.
      + apply mem_In in M.
        assert (I' : inv st disc (if mem n fin then fin else n :: fin)).
        { destruct (mem n fin) eqn:F.
          - apply mem_In in F. exact (inv_pop n st disc fin I F).
          - apply mem_not_In in F. exact (inv_finish n st disc fin I M F). }
        specialize (IH _ _ _ _ I' H). destruct r as [[disc' fin']|u]; [|exact IH].
        destruct IH as (J & D & S & C). split; [exact J|]. split; [exact D|]. split.
        * intros x [<-|Hx]; auto.
        * intros P HS HD HC x Hx. apply (C P); auto. intros y Hy. apply HS. right. exact Hy.
      + apply mem_not_In in M. destruct (mem n (succ n)) eqn:F.
        * injection H as <-. exists n. apply mem_In. exact F.
        * apply mem_not_In in F. specialize (IH _ _ _ _ (inv_discover n st disc fin I M F) H).
          destruct r as [[disc' fin']|u]; [|exact IH]. destruct IH as (J & D & S & C).
          split; [exact J|]. split; [intros x Hx; apply D; right; exact Hx|]. split.
          -- intros x Hx. apply S. apply in_or_app. right. exact Hx.
          -- intros P HS HD HC x Hx. assert (Pn : P n) by (apply HS; left; reflexivity). apply (C P); auto.
             ++ intros y Hy. apply in_app_or in Hy. destruct Hy as [Hy|Hy]; [|exact (HS y Hy)].
                apply in_rev in Hy. apply filter_In in Hy. apply (HC n y Pn). apply Hy.
             ++ intros y [<-|Hy]; auto.
  Qed.

  Lemma inv_start i disc fin : inv [] disc fin -> ~ In i disc -> inv [i] disc fin.
  Proof.
    intros [I1 I2 I3 I4 I5 I6] Hi. constructor; auto.
    - intros n Hn Nn. destruct (I3 n Hn Nn).
    - intros above n below Es Na Hn Nf. exfalso. destruct (I3 n Hn Nf).
  Qed.

  Lemma finish_all_spec fuel : forall starts disc fin r, inv [] disc fin -> finish_all fuel succ starts disc fin = Some r ->
    match r with
    | inl (disc', fin') => inv [] disc' fin' /\ (forall x, In x disc -> In x disc') /\ (forall x, In x starts -> In x disc') /\
        (forall P : nat -> Prop, (forall x, In x starts -> P x) -> (forall x, In x disc -> P x) ->
           (forall x y, P x -> E x y -> P y) -> forall x, In x disc' -> P x)
    | inr _ => exists n, E n n
    end.
  Proof.
    induction starts as [|i rest IH]; intros disc fin r I H.
    - injection H as <-. split; [exact I|]. split; [auto|]. split; [intros x []|auto].
    - cbn [finish_all] in H. destruct (mem i disc) eqn:M.
      + apply mem_In in M. specialize (IH _ _ _ I H). destruct r as [[disc' fin']|u]; [|exact IH].
        destruct IH as (J & D & S & C). split; [exact J|]. split; [exact D|]. split.
        * intros x [<-|Hx]; auto.
        * intros P HS HD HC. apply C; auto. intros y Hy. apply HS. right. exact Hy.
      + apply mem_not_In in M. destruct (finish fuel succ [i] disc fin) as [r1|] eqn:F; [|discriminate].
        pose proof (finish_spec fuel _ _ _ _ (inv_start i disc fin I M) F) as K.
        destruct r1 as [[disc1 fin1]|u]; [|injection H as <-; exact K].
        destruct K as (J1 & D1 & S1 & C1). specialize (IH _ _ _ J1 H). destruct r as [[disc' fin']|u]; [|exact IH].
        destruct IH as (J & D & S & C). split; [exact J|]. split; [auto|]. split.
        * intros x [<-|Hx]; [apply D, S1; left; reflexivity|auto].
        * intros P HS HD HC. apply C; [intros y Hy; apply HS; right; exact Hy| |exact HC].
          apply C1; auto. intros y [<-|[]]. apply HS. left. reflexivity.
  Qed.

  Lemma inv_empty : inv [] [] [].
  Proof.
    constructor.
    - intros x [].
    - constructor.
    - intros n [].
    - intros above n below H. destruct above; discriminate.
    - intros _ f1 a f2 H. destruct f1; discriminate.
    - intros n [].
  Qed.

  (** the second pass: a successful run gives an order in which predecessors come first *)
  Lemma single_true fuel : forall order disc, NoDup order -> (forall x, In x order -> ~ In x disc) ->
    single_searches fuel pred order disc = Some true ->
    forall o1 i o2, order = o1 ++ i :: o2 -> forall j, E j i -> j = i \/ In j o1 \/ In j disc.
  Proof.
    induction order as [|k rest IH]; intros disc N D H o1 i o2 Eo j Hj; [destruct o1; discriminate|].
    inversion N as [|? ? N1 N2]; subst. cbn [single_searches] in H.
    destruct (dfs fuel pred [k] disc) as [l|] eqn:F; [|discriminate].
    destruct (2 <=? length l) eqn:L; [discriminate|]. apply Nat.leb_gt in L.
    destruct (dfs_sound fuel pred [k] disc l F) as (Nl & Dl & _ & S & C).
    assert (Hk : In k l).
    { destruct (S k (or_introl eq_refl)) as [K|K]; [exact K|]. exfalso. apply (D k); [left; reflexivity|exact K]. }
    assert (El : l = [k]).
    { destruct l as [|a [|b l]]; [destruct Hk| |simpl in L; lia]. destruct Hk as [->|[]]. reflexivity. }
    subst l. destruct o1 as [|o o1]; simpl in Eo; injection Eo as Ek Er.
    - subst k. destruct (C i j (or_introl eq_refl)) as [[K|[]]|K]; [apply dual; exact Hj| |].
      + left. auto.
      + right. right. exact K.
    - subst o. destruct (IH ([k] ++ disc) N2) with (o1 := o1) (i := i) (o2 := o2) (j := j) as [K|[K|[K|K]]]; auto.
      + intros x Hx [->|K]; [contradiction|]. apply (D x); [right; exact Hx|exact K].
      + right. left. right. exact K.
      + right. left. left. exact K.
  Qed.

  (** a failed run finds a node that reaches an earlier one *)
  Lemma single_false fuel : forall order disc, NoDup order -> (forall x, In x order -> ~ In x disc) ->
    single_searches fuel pred order disc = Some false ->
    exists o1 i o2 j, order = o1 ++ i :: o2 /\ j <> i /\ ~ In j o1 /\ ~ In j disc /\ reach E j i.
  Proof.
    induction order as [|k rest IH]; intros disc N D H; [discriminate|].
    inversion N as [|? ? N1 N2]; subst. cbn [single_searches] in H.
    destruct (dfs fuel pred [k] disc) as [l|] eqn:F; [|discriminate].
    destruct (dfs_sound fuel pred [k] disc l F) as (Nl & Dl & A & S & C).
    assert (Hk : In k l).
    { destruct (S k (or_introl eq_refl)) as [K|K]; [exact K|]. exfalso. apply (D k); [left; reflexivity|exact K]. }
    destruct (2 <=? length l) eqn:L.
    - apply Nat.leb_le in L.
      assert (exists j, In j l /\ j <> k) as (j & Hj & NE).
      { destruct l as [|a [|b l]]; simpl in L; try lia. inversion Nl as [|? ? Na Nb]; subst.
        destruct (Nat.eq_dec a k) as [->|NE]; [|exists a; split; [left; reflexivity|exact NE]].
        exists b. split; [right; left; reflexivity|]. intros ->. apply Na. left. reflexivity. }
      exists [], k, rest, j. split; [reflexivity|]. split; [exact NE|]. split; [intros []|]. split; [exact (Dl j Hj)|].
      destruct (A j Hj) as (s & [<-|[]] & As). apply avoid_reach in As. apply reach_flip.
      apply (reach_iff (fun x y => In y (pred x))); [intros x y; apply dual|exact As].
    - apply Nat.leb_gt in L.
      assert (El : l = [k]).
      { destruct l as [|a [|b l]]; [destruct Hk| |simpl in L; lia]. destruct Hk as [->|[]]. reflexivity. }
      subst l. destruct (IH ([k] ++ disc) N2) as (o1 & i & o2 & j & -> & NE & Nj & Dj & R); auto.
      { intros x Hx [->|K]; [contradiction|]. apply (D x); [right; exact Hx|exact K]. }
      exists (k :: o1), i, o2, j. split; [reflexivity|]. split; [exact NE|]. split.
      + intros [->|K]; [|exact (Nj K)]. apply Dj. left. reflexivity.
      + split; [|exact R]. intro K. apply Dj. right. exact K.
  Qed.

  (** an order in which all predecessors come first excludes cycles *)
  Lemma ordered_acyclic order : NoDup order -> (forall n, ~ E n n) -> (forall a b, E a b -> In b order) ->
    (forall o1 i o2, order = o1 ++ i :: o2 -> forall j, E j i -> j = i \/ In j o1 \/ In j []) -> acyclic.
  Proof.
    intros N Self All P a (b & Hab & R).
    assert (step : forall x y o1 o2, E x y -> order = o1 ++ y :: o2 -> In x o1).
    { intros x y o1 o2 H Eo. destruct (P o1 y o2 Eo x H) as [->|[K|[]]]; [|exact K]. exfalso. exact (Self y H). }
    assert (far : forall x y, reach E x y -> forall o1 o2, order = o1 ++ y :: o2 -> x = y \/ In x o1).
    { intros x y Rxy. induction Rxy as [x|x z y Hxz Rzy IH]; intros o1 o2 Eo; [left; reflexivity|]. right.
      destruct (IH o1 o2 Eo) as [->|K]; [exact (step x y o1 o2 Hxz Eo)|].
      apply in_split in K. destruct K as (p1 & p2 & ->).
      assert (In x p1) as Hx by (apply (step x z p1 (p2 ++ y :: o2) Hxz); rewrite Eo, <- app_assoc; reflexivity).
      apply in_or_app. left. exact Hx. }
    pose proof (All a b Hab) as Hb. apply in_split in Hb. destruct Hb as (o1 & o2 & Eo).
    pose proof (step a b o1 o2 Hab Eo) as Ha. apply in_split in Ha. destruct Ha as (p1 & p2 & ->).
    rewrite <- app_assoc in Eo. cbn [app] in Eo.
    destruct (far b a R p1 (p2 ++ b :: o2) Eo) as [->|K]; [exact (Self a Hab)|].
    rewrite Eo in N. apply in_split in K. destruct K as (q1 & q2 & ->).
    rewrite <- app_assoc in N. cbn [app] in N. apply NoDup_remove_2 in N. apply N.
    apply in_or_app. right. apply in_or_app. right. right. apply in_or_app. right. left. reflexivity.
  Qed.
End Topo.

Lemma finish_more fuel : forall succ stack disc fin r fuel', fuel <= fuel' ->
  finish fuel succ stack disc fin = Some r -> finish fuel' succ stack disc fin = Some r.
Proof.
  induction fuel as [|f IH]; intros succ stack disc fin r fuel' L H; [discriminate|].
  destruct fuel' as [|f']; [lia|]. cbn [finish] in *. destruct stack as [|n st]; [exact H|].
  destruct (mem n disc); [apply IH; [lia|exact H]|]. destruct (mem n (succ n)); [exact H|]. apply IH; [lia|exact H].
Qed.

Lemma finish_total (U : list nat) succ :
  (forall x y, In x U -> In y (succ x) -> In y U) ->
  forall disc stack fin, (forall x, In x stack -> In x U) -> exists fuel r, finish fuel succ stack disc fin = Some r.
Proof.
  intros CL disc. remember (left_over U disc) as k eqn:K. revert disc K.
  induction k as [k IHk] using lt_wf_ind. intros disc K stack. induction stack as [|n st IHs]; intros fin HS.
  - exists 1. eexists. reflexivity.
  - destruct (mem n disc) eqn:E.
    + destruct (IHs (if mem n fin then fin else n :: fin)) as (f & l & H); [intros x Hx; apply HS; right; exact Hx|].
      exists (S f), l. cbn [finish]. rewrite E. exact H.
    + pose proof E as E'. apply mem_not_In in E'.
      assert (HnU : In n U) by (apply HS; left; reflexivity).
      destruct (mem n (succ n)) eqn:F; [exists 1, (inr tt); cbn [finish]; rewrite E, F; reflexivity|].
      destruct (IHk (left_over U (n :: disc)) ltac:(subst k; apply left_over_lt; assumption) (n :: disc) eq_refl
                  (rev (filter (fun s => negb (mem s (n :: disc))) (succ n)) ++ n :: st) fin) as (f & l & H).
      { intros x Hx. apply in_app_or in Hx. destruct Hx as [Hx|Hx]; [|apply HS; exact Hx].
        apply in_rev in Hx. apply filter_In in Hx. destruct Hx as [Hx _]. exact (CL n x HnU Hx). }
      exists (S f), l. cbn [finish]. rewrite E, F. exact H.
Qed.

Lemma finish_all_more succ : forall starts disc fin r fuel fuel', fuel <= fuel' ->
  finish_all fuel succ starts disc fin = Some r -> finish_all fuel' succ starts disc fin = Some r.
Proof.
  induction starts as [|i rest IH]; intros disc fin r fuel fuel' L H; [exact H|]. cbn [finish_all] in *.
  destruct (mem i disc); [exact (IH _ _ _ _ _ L H)|].
  destruct (finish fuel succ [i] disc fin) as [r1|] eqn:F; [|discriminate].
  rewrite (finish_more _ _ _ _ _ _ fuel' L F). destruct r1 as [[d1 f1]|u]; [exact (IH _ _ _ _ _ L H)|exact H].
Qed.

Lemma finish_all_total (U : list nat) succ :
  (forall x y, In x U -> In y (succ x) -> In y U) ->
  forall starts disc fin, (forall x, In x starts -> In x U) -> exists fuel r, finish_all fuel succ starts disc fin = Some r.
Proof.
  intros CL. induction starts as [|i rest IH]; intros disc fin HS; [exists 0; eexists; reflexivity|].
  assert (HR : forall x, In x rest -> In x U) by (intros x Hx; apply HS; right; exact Hx). cbn [finish_all].
  destruct (mem i disc) eqn:M; [exact (IH disc fin HR)|].
  destruct (finish_total U succ CL disc [i] fin) as (f & r & H).
  { intros x [<-|[]]. apply HS. left. reflexivity. }
  destruct r as [[d1 f1]|u].
  - destruct (IH d1 f1 HR) as (f' & r' & H'). exists (Nat.max f f'), r'.
    rewrite (finish_more _ _ _ _ _ _ (Nat.max f f') (Nat.le_max_l _ _) H).
    exact (finish_all_more _ _ _ _ _ _ _ (Nat.le_max_r _ _) H').
  - exists f, (inr u). rewrite H. reflexivity.
Qed.

Lemma single_more pred : forall order disc r fuel fuel', fuel <= fuel' ->
  single_searches fuel pred order disc = Some r -> single_searches fuel' pred order disc = Some r.
Proof.
  induction order as [|i rest IH]; intros disc r fuel fuel' L H; [exact H|]. cbn [single_searches] in *.
  destruct (dfs fuel pred [i] disc) as [l|] eqn:F; [|discriminate].
  rewrite (dfs_more _ _ _ _ _ fuel' L F). destruct (2 <=? length l); [exact H|exact (IH _ _ _ _ L H)].
Qed.
Lemma single_total (U : list nat) pred :
  (forall x y, In x U -> In y (pred x) -> In y U) ->
  forall order disc, (forall x, In x order -> In x U) -> exists fuel r, single_searches fuel pred order disc = Some r.
Proof.
  intros CL. induction order as [|i rest IH]; intros disc HS; [exists 0; eexists; reflexivity|]. cbn [single_searches].
  destruct (dfs_total U pred CL disc [i]) as (f & l & H); [intros x [<-|[]]; apply HS; left; reflexivity|].
  destruct (2 <=? length l) eqn:L.
  - exists f, false. rewrite H, L. reflexivity.
  - destruct (IH (l ++ disc)) as (f' & r' & H'); [intros x Hx; apply HS; right; exact Hx|].
    exists (Nat.max f f'), r'. rewrite (dfs_more _ _ _ _ _ (Nat.max f f') (Nat.le_max_l _ _) H), L.
    exact (single_more _ _ _ _ _ _ (Nat.le_max_r _ _) H').
Qed.

Lemma on_cycle_iff (E F : nat -> nat -> Prop) a : (forall x y, E x y <-> F x y) -> on_cycle E a -> on_cycle F a.
Proof. intros H (b & Hab & R). exists b. split; [apply H; exact Hab|]. exact (reach_iff E F b a H R). Qed.

Lemma nodup_split_unique (z : nat) u1 u2 v1 v2 : NoDup (u1 ++ z :: u2) -> u1 ++ z :: u2 = v1 ++ z :: v2 -> u1 = v1.
Proof.
  revert v1. induction u1 as [|x u1 IH]; intros v1 N H.
  - destruct v1 as [|y v1]; [reflexivity|]. simpl in H. injection H as <- H. exfalso.
    simpl in N. inversion N as [|? ? N1 N2]; subst. apply N1. apply in_or_app. right. left. reflexivity.
  - destruct v1 as [|y v1]; simpl in H; injection H as E1 H.
    + exfalso. subst x. simpl in N. inversion N as [|? ? N1 N2]; subst. apply N1. apply in_or_app. right. left. reflexivity.
    + subst y. f_equal. simpl in N. inversion N as [|? ? N1 N2]; subst. exact (IH v1 N2 H).
Qed.

Lemma reach_dec {A} (g : graph A) a b : reach (edge g) a b \/ ~ reach (edge g) a b.
Proof.
  destruct (dfs_total (a :: nodes g) (succs g) (proj1 (graph_universe g a)) [] [a]) as (f & l & H).
  { intros x [->|[]]. left. reflexivity. }
  pose proof (dfs_spec _ _ _ _ _ b H) as S. destruct (in_dec Nat.eq_dec b l) as [K|K].
  - left. apply S in K. destruct K as (s & [<-|[]] & Av). apply avoid_reach in Av.
    apply (reach_iff (fun x y => In y (succs g x))); [intros; apply succs_In|exact Av].
  - right. intro R. apply K. apply S. exists a. split; [left; reflexivity|]. apply reach_avoid.
    apply (reach_iff (edge g)); [intros; symmetry; apply succs_In|exact R].
Qed.
Lemma finite_dec {B} (P : B -> Prop) l : (forall x, P x \/ ~ P x) -> (exists x, In x l /\ P x) \/ (forall x, In x l -> ~ P x).
Proof.
  intro D. induction l as [|x l IH]; [right; intros x []|].
  destruct (D x) as [H|H]; [left; exists x; split; [left; reflexivity|exact H]|].
  destruct IH as [(y & Hy & Py)|N]; [left; exists y; split; [right; exact Hy|exact Py]|].
  right. intros y [<-|Hy]; [exact H|exact (N y Hy)].
Qed.
Lemma cyclic_dec {A} (g : graph A) : (exists a, on_cycle (edge g) a) \/ (forall a, ~ on_cycle (edge g) a).
Proof.
  destruct (finite_dec (fun e : nat * nat * A => reach (edge g) (snd (fst e)) (fst (fst e))) g) as [([[a b] w] & He & R)|N].
  - intros [[a b] w]. apply reach_dec.
  - left. exists a, b. split; [exists w; exact He|exact R].
  - right. intros a (b & (w & He) & R). exact (N _ He R).
Qed.

Lemma toposort_spec {A} (g : graph A) :
  (exists fuel r, toposort_ok fuel g = Some r) /\
  (forall fuel r, toposort_ok fuel g = Some r -> (r = false <-> exists a, on_cycle (edge g) a)).
Proof.
  assert (dual : forall a b, In a (preds g b) <-> In b (succs g a)) by (intros a b; rewrite preds_In, succs_In; reflexivity).
  assert (conv : forall a, on_cycle (fun x y => In y (succs g x)) a <-> on_cycle (edge g) a).
  { intro a. split; apply on_cycle_iff; intros x y; [apply succs_In|symmetry; apply succs_In]. }
  assert (CS : forall x y, In x (nodes g) -> In y (succs g x) -> In y (nodes g)).
  { intros x y _ H. apply nodes_In. exists x. right. apply succs_In. exact H. }
  assert (CP : forall x y, In x (nodes g) -> In y (preds g x) -> In y (nodes g)).
  { intros x y _ H. apply nodes_In. exists x. left. apply preds_In. exact H. }
  split.
  - destruct (finish_all_total (nodes g) (succs g) CS (nodes g) [] [] (fun x H => H)) as (f & r & H).
    destruct r as [[disc fin]|u].
    + pose proof (finish_all_spec (succs g) f (nodes g) [] [] _ (inv_empty (succs g)) H) as (J & _ & _ & C).
      destruct (single_total (nodes g) (preds g) CP fin []) as (f' & r' & H').
      { intros x Hx. apply (C (fun x => In x (nodes g))); auto; [intros y []|]. exact (inv_fin _ _ _ _ J x Hx). }
      exists (Nat.max f f'), r'. unfold toposort_ok.
      rewrite (finish_all_more _ _ _ _ _ _ _ (Nat.le_max_l f f') H). exact (single_more _ _ _ _ _ _ (Nat.le_max_r _ _) H').
    + exists f, false. unfold toposort_ok. rewrite H. reflexivity.
  - intros fuel r H. unfold toposort_ok in H.
    destruct (finish_all fuel (succs g) (nodes g) [] []) as [[[disc fin]|u]|] eqn:F; [| |discriminate].
    + pose proof (finish_all_spec (succs g) fuel (nodes g) [] [] _ (inv_empty (succs g)) F) as (J & _ & Starts & _).
      assert (Full : forall x, In x disc -> In x fin).
      { intros x Hx. destruct (in_dec Nat.eq_dec x fin) as [K|K]; [exact K|]. destruct (inv_grey _ _ _ _ J x Hx K). }
      assert (Self : forall n, ~ In n (succs g n)).
      { intros n Hn. apply (inv_self _ _ _ _ J n); [|exact Hn]. apply Starts. apply nodes_In. exists n. left. apply succs_In. exact Hn. }
      destruct r.
      * split; [discriminate|]. intros (a & Ca). exfalso. apply conv in Ca.
        pose proof (single_true (succs g) (preds g) dual fuel fin [] (inv_nodup _ _ _ _ J) (fun _ _ K => K) H) as P.
        apply (ordered_acyclic (succs g) fin (inv_nodup _ _ _ _ J) Self) with (a := a); [|exact P|exact Ca].
        intros x y Hxy. apply Full, Starts. apply nodes_In. exists x. right. apply succs_In. exact Hxy.
      * split; [|reflexivity]. intros _.
        destruct (single_false (succs g) (preds g) dual fuel fin [] (inv_nodup _ _ _ _ J) (fun _ _ K => K) H)
          as (o1 & i & o2 & j & Eo & NE & Nj & _ & R).
        destruct (cyclic_dec g) as [C|AC]; [exact C|]. exfalso.
        assert (AC' : acyclic (succs g)) by (intros a Ca; apply (AC a), conv; exact Ca).
        pose proof (inv_order _ _ _ _ J AC') as O.
        assert (far : forall x y, reach (fun x y => In y (succs g x)) x y -> forall p1 p2, fin = p1 ++ y :: p2 -> In x fin -> x = y \/ In x p1).
        { intros x y Rxy. induction Rxy as [x|x z y Hxz Rzy IH]; intros p1 p2 Ef Hx; [left; reflexivity|]. right.
          apply in_split in Hx. destruct Hx as (q1 & q2 & Eq). pose proof (O q1 x q2 Eq z Hxz) as Hz.
          assert (Hzf : In z fin) by (rewrite Eq; apply in_or_app; right; right; exact Hz).
          assert (before : forall w s1 s2, fin = s1 ++ w :: s2 -> w = z \/ (exists t1 t2, s1 = t1 ++ z :: t2) -> In x s1).
          { intros w s1 s2 Es Hw. pose proof (inv_nodup _ _ _ _ J) as N.
            apply in_split in Hz. destruct Hz as (r1 & r2 & ->).
            assert (K : exists s2', fin = q1 ++ x :: r1 ++ z :: r2 /\ s2' = r2) by (exists r2; auto).
            destruct (in_dec Nat.eq_dec x s1) as [K1|K1]; [exact K1|]. exfalso.
            assert (Hu : exists u1 u2, fin = u1 ++ z :: u2 /\ ~ In x u1).
            { destruct Hw as [->|(t1 & t2 & ->)].
              - exists s1, s2. auto.
              - exists t1, (t2 ++ w :: s2). split; [rewrite Es, <- app_assoc; reflexivity|].
                intro Kt. apply K1. apply in_or_app. left. exact Kt. }
            destruct Hu as (u1 & u2 & Eu & Nu).
            assert (Eu' : u1 ++ z :: u2 = (q1 ++ x :: r1) ++ z :: r2) by (rewrite <- Eu, Eq, <- app_assoc; reflexivity).
            assert (u1 = q1 ++ x :: r1) as ->.
            { apply (nodup_split_unique z u1 u2 (q1 ++ x :: r1) r2); [rewrite <- Eu; exact N|exact Eu']. }
            apply Nu. apply in_or_app. right. left. reflexivity. }
          apply (before y p1 p2 Ef). destruct (IH p1 p2 Ef Hzf) as [->|K]; [left; reflexivity|right].
          apply in_split in K. exact K. }
        assert (Hj : In j fin).
        { apply Full, Starts. destruct R as [j|j z i Hjz _]; [contradiction|].
          apply nodes_In. exists z. left. apply succs_In. exact Hjz. }
        destruct (far j i R o1 o2 Eo Hj) as [K|K]; contradiction.
    + injection H as <-. split; [|reflexivity]. intros _.
      destruct (finish_all_spec (succs g) fuel (nodes g) [] [] _ (inv_empty (succs g)) F) as (n & Hn).
      exists n. exists n. split; [apply succs_In; exact Hn|apply reach_refl].
Qed.
