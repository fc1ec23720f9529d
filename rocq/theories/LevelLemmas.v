(** Lemmas on the scheduling of shapes. *)
From Coq Require Import List Arith Bool Lia Permutation.
Import ListNotations.
From Verif Require Import GraphModel GraphSpec GraphLemmas LevelModel LevelSpec.

(** ** sorting *)
Lemma insert_perm x l : Permutation (x :: l) (insert x l).
Proof.
  induction l as [|y l IH]; cbn [insert]; [reflexivity|]. destruct (x <=? y); [reflexivity|].
  rewrite <- IH. apply perm_swap.
Qed.
Lemma sort_perm l : Permutation l (sort l).
Proof. induction l as [|x l IH]; [constructor|]. cbn [sort fold_right]. rewrite <- insert_perm. constructor. exact IH. Qed.
Lemma sort_In x l : In x (sort l) <-> In x l.
Proof. split; apply Permutation_in; [apply Permutation_sym|]; apply sort_perm. Qed.
Lemma sort_NoDup l : NoDup l -> NoDup (sort l).
Proof. apply Permutation_NoDup, sort_perm. Qed.

Lemma NoDup_app_intro {A} (l m : list A) : NoDup l -> NoDup m -> (forall x, In x l -> ~ In x m) -> NoDup (l ++ m).
Proof.
  induction l as [|x l IH]; intros N M D; [exact M|]. inversion N as [|? ? N1 N2]; subst. cbn [app]. constructor.
  - intro C. apply in_app_or in C as [C|C]; [contradiction|]. apply (D x (or_introl eq_refl) C).
  - apply IH; auto. intros y Hy. apply D. right. exact Hy.
Qed.

(** ** the dependency graph *)
Lemma get_shape_In sch i s : get_shape sch i = Some s -> In (i, s) sch.
Proof.
  induction sch as [|[j t] r IH]; cbn [get_shape]; [discriminate|]. destruct (Nat.eqb_spec i j); [|intro H; right; apply IH, H].
  intro H. injection H as ->. subst. left. reflexivity.
Qed.
Lemma get_shape_some sch i : In i (map fst sch) -> exists s, get_shape sch i = Some s.
Proof.
  induction sch as [|[j t] r IH]; cbn [get_shape map fst]; [intros []|]. destruct (Nat.eqb_spec i j); [eauto|]. intros [H|H]; [congruence|apply IH, H].
Qed.
Lemma get_shape_uniq sch i s : NoDup (map fst sch) -> In (i, s) sch -> get_shape sch i = Some s.
Proof.
  induction sch as [|[j t] r IH]; cbn [get_shape map fst]; [intros _ []|]. intros N [H|H].
  - injection H as -> ->. rewrite Nat.eqb_refl. reflexivity.
  - inversion N as [|? ? N1 N2]; subst. destruct (Nat.eqb_spec i j) as [->|]; [|apply IH; assumption].
    exfalso. apply N1. apply (in_map fst _ _ H).
Qed.

Section Build.
  Variable sch : schema.
  Hypothesis W : wf sch.
  Notation keys := (map fst sch).

  Definition sref (s : shape) (b : nat) : Prop := (exists c, In c (comps s) /\ comp_refers c b) \/ In b (props s).

  Definition ok_graph (g : graph posneg) : Prop := NoDup (map fst g).
  Definition grow (st st' : dstate) : Prop :=
    ok_graph (fst st) -> ok_graph (fst st') /\ incl (snd st) (snd st') /\ (forall a b, edge (fst st) a b -> edge (fst st') a b) /\
    (forall a b, edge (fst st') a b -> edge (fst st) a b \/ refers sch a b).
  Lemma grow_refl st : grow st st.
  Proof. intro H. repeat split; auto. apply incl_refl. Qed.
  Lemma grow_trans a b c : grow a b -> grow b c -> grow a c.
  Proof.
    intros H K O. destruct (H O) as (O1 & I1 & E1 & S1). destruct (K O1) as (O2 & I2 & E2 & S2). repeat split; auto.
    - apply (incl_tran I1 I2).
    - intros x y D. destruct (S2 x y D) as [D'|D']; auto.
  Qed.
  Lemma edge_add (g : graph posneg) a b w x y : ok_graph g -> edge (add_edge g a b w) x y <-> (x = a /\ y = b) \/ edge g x y.
  Proof.
    intro O. unfold edge. split.
    - intros (v & H). apply add_edge_In in H; [|exact O]. destruct H as [(-> & -> & ->)|[_ H]]; [left; auto|right; exists v; exact H].
    - intros [[-> ->]|(v & H)].
      + exists w. apply add_edge_In; [exact O|]. left. auto.
      + destruct (Nat.eq_dec x a) as [->|N]; [destruct (Nat.eq_dec y b) as [->|N]|].
        * exists w. apply add_edge_In; [exact O|]. left. auto.
        * exists v. apply add_edge_In; [exact O|]. right. split; [intros [_ X]; congruence|exact H].
        * exists v. apply add_edge_In; [exact O|]. right. split; [intros [X _]; congruence|exact H].
  Qed.
  Lemma add_grow g d d' a b w : refers sch a b -> incl d d' -> grow (g, d) (add_edge g a b w, d').
  Proof.
    intros R I O. cbn [fst snd] in *. split; [apply add_edge_NoDup, O|]. split; [exact I|]. split; intros x y H.
    - apply edge_add; [exact O|]. right. exact H.
    - apply edge_add in H; [|exact O]. destruct H as [[-> ->]|H]; auto.
  Qed.
  Lemma left_over_mono U d d' : incl d d' -> left_over U d' <= left_over U d.
  Proof.
    intro I. apply filter_length_le. intros x _ H. apply negb_true_iff, mem_not_In in H. apply negb_true_iff, mem_not_In. intro C. apply H, I, C.
  Qed.

  (** a step from [idx] that records the edge to each of [bs] *)
  Definition step_ok (idx : nat) (bs : nat -> Prop) (fuel : nat) (f : dstate -> option dstate) : Prop :=
    forall st, ok_graph (fst st) -> left_over keys (snd st) < fuel ->
    exists st', f st = Some st' /\ grow st st' /\ forall b, bs b -> edge (fst st') idx b.

  Lemma each_ok {A} idx (bs : A -> nat -> Prop) fuel (f : A -> dstate -> option dstate) l :
    (forall x, In x l -> step_ok idx (bs x) fuel (f x)) -> step_ok idx (fun b => exists x, In x l /\ bs x b) fuel (each f l).
  Proof.
    induction l as [|x l IH]; intros H st O L; cbn [each].
    - exists st. split; [reflexivity|]. split; [apply grow_refl|]. intros b (y & [] & _).
    - destruct (H x (or_introl eq_refl) st O L) as (st1 & -> & G1 & B1). destruct (G1 O) as (O1 & I1 & E1 & S1).
      destruct (IH (fun y Hy => H y (or_intror Hy)) st1 O1) as (st2 & -> & G2 & B2).
      { pose proof (left_over_mono keys _ _ I1). lia. }
      exists st2. split; [reflexivity|]. split; [apply (grow_trans _ _ _ G1 G2)|].
      destruct (G2 O1) as (_ & _ & E2 & _). intros b (y & [<-|Hy] & Hb); [apply E2, B1, Hb|apply B2; exists y; auto].
  Qed.

  Lemma reference_ok rec idx target w fuel : refers sch idx target ->
    (forall s, get_shape sch target = Some s -> forall st, ok_graph (fst st) -> left_over keys (snd st) < fuel -> exists st', rec target s st = Some st' /\ grow st st') ->
    step_ok idx (fun b => b = target) (S fuel) (reference rec sch idx target w).
  Proof.
    intros R HR st O L. unfold reference.
    assert (K : In target keys) by (apply W with idx; destruct R as (s & Hs & D); exists s; split; [exact Hs|]; destruct D as [(c & Hc & D)|D]; [left; exists c; split; [exact Hc|left; exact D]|right; left; exact D]).
    destruct (get_shape_some sch target K) as [s Hs]. rewrite Hs.
    destruct (mem target (snd st)) eqn:M.
    - eexists. split; [reflexivity|]. split; [destruct st as [g0 d0]; cbn; apply (add_grow g0 d0 d0 idx target w R), incl_refl|].
      intros b ->. apply edge_add; [exact O|]. left. auto.
    - apply mem_not_In in M. pose proof (left_over_lt keys (snd st) target K M) as LT.
      assert (G : grow st (add_edge (fst st) idx target w, target :: snd st)) by (destruct st as [g0 d0]; apply (add_grow g0 d0 (target :: d0) idx target w R), incl_tl, incl_refl).
      destruct (G O) as (O1 & _).
      destruct (HR s Hs (add_edge (fst st) idx target w, target :: snd st) O1) as (st' & E & G2); [cbn [snd]; lia|].
      exists st'. split; [exact E|]. split; [apply (grow_trans _ _ _ G G2)|]. intros b ->. destruct (G2 O1) as (_ & _ & E2 & _). apply E2.
      apply edge_add; [exact O|]. left. auto.
  Qed.

  Lemma add_edges_ok fuel : forall idx s w, get_shape sch idx = Some s -> step_ok idx (sref s) fuel (add_edges fuel sch idx s w).
  Proof.
    induction fuel as [|fuel IH]; intros idx s w Hs; [intros st O L; lia|]. cbn [add_edges].
    assert (HI : In (idx, s) sch) by (apply get_shape_In, Hs).
    assert (REC : forall w t target, get_shape sch target = Some t -> forall st, ok_graph (fst st) -> left_over keys (snd st) < fuel -> exists st', add_edges fuel sch target t w st = Some st' /\ grow st st').
    { intros w0 t target Ht st O L. destruct (IH target t w0 Ht st O L) as (st' & E & G & _). eauto. }
    assert (CO : step_ok idx (fun b => exists c, In c (comps s) /\ comp_refers c b) (S fuel) (each (comp_edges (add_edges fuel sch) sch idx w) (comps s))).
    { apply (each_ok idx (fun c b => comp_refers c b)). intros c Hc.
      assert (RF : forall b, comp_refers c b -> refers sch idx b) by (intros b Hb; exists s; split; [exact HI|]; left; exists c; auto).
      assert (LI : forall l, (forall b, In b l -> refers sch idx b) -> step_ok idx (fun b => In b l) (S fuel) (each (fun i => reference (fun j s0 => add_edges fuel sch j s0 w) sch idx i w) l)).
      { intros l Hl st O L. destruct (each_ok idx (fun i b => b = i) (S fuel) (fun i => reference (fun j s0 => add_edges fuel sch j s0 w) sch idx i w) l) with (st := st) as (st' & E & G & B); auto.
        - intros i Hi. apply reference_ok; [apply Hl, Hi|]. intros t Ht. apply REC, Ht.
        - exists st'. split; [exact E|]. split; [exact G|]. intros b Hb. apply B. exists b. auto. }
      destruct c as [l|l|l|i|i|i sib|]; cbn [comp_edges comp_refers] in *; try (apply LI; exact RF).
      - apply reference_ok; [apply RF; reflexivity|]. intros t Ht. apply REC, Ht.
      - apply reference_ok; [apply RF; reflexivity|]. intros t Ht. apply REC, Ht.
      - intros st O L. eexists. split; [reflexivity|]. split; [destruct st as [g0 d0]; apply (add_grow g0 d0 d0); [apply RF; reflexivity|apply incl_refl]|].
        intros b ->. apply edge_add; [exact O|]. left. auto.
      - intros st O L. exists st. split; [reflexivity|]. split; [apply grow_refl|]. intros b []. }
    assert (PO : step_ok idx (fun b => In b (props s)) (S fuel) (each (fun i => reference (fun j s0 => add_edges fuel sch j s0 w) sch idx i w) (props s))).
    { intros st O L. destruct (each_ok idx (fun i b => b = i) (S fuel) (fun i => reference (fun j s0 => add_edges fuel sch j s0 w) sch idx i w) (props s)) with (st := st) as (st' & E & G & B); auto.
      - intros i Hi. apply reference_ok; [exists s; split; [exact HI|]; right; exact Hi|]. intros t Ht. apply REC, Ht.
      - exists st'. split; [exact E|]. split; [exact G|]. intros b Hb. apply B. exists b. auto. }
    intros st O L. destruct (CO st O L) as (st1 & -> & G1 & B1). destruct (G1 O) as (O1 & I1 & E1 & S1).
    destruct (PO st1 O1) as (st2 & E & G2 & B2); [pose proof (left_over_mono keys _ _ I1); lia|].
    exists st2. split; [exact E|]. split; [apply (grow_trans _ _ _ G1 G2)|]. destruct (G2 O1) as (_ & _ & E2 & _).
    intros b [Hb|Hb]; [apply E2, B1, Hb|apply B2, Hb].
  Qed.

  Lemma left_over_le U d : left_over U d <= length U.
  Proof. unfold left_over. induction U as [|x U IH]; cbn; [lia|]. destruct (negb _); cbn; lia. Qed.

  Theorem build_ok fuel : enough sch <= fuel -> exists g, build_graph fuel sch = Some g /\ ok_graph g /\ forall a b, edge g a b <-> refers sch a b.
  Proof.
    intro F. unfold build_graph.
    assert (G : forall l st, ok_graph (fst st) -> incl l keys ->
      exists st', each (fun idx st => match get_shape sch idx with Some s => add_edges fuel sch idx s Pos st | None => None end) l st = Some st' /\ grow st st' /\
        forall a b, In a l -> refers sch a b -> edge (fst st') a b).
    { induction l as [|x l IH]; intros st O I; cbn [each].
      - exists st. split; [reflexivity|]. split; [apply grow_refl|]. intros a b [].
      - destruct (get_shape_some sch x (I x (or_introl eq_refl))) as [s Hs]. rewrite Hs.
        destruct (add_edges_ok fuel x s Pos Hs st O) as (st1 & -> & G1 & B1).
        { pose proof (left_over_le keys (snd st)). rewrite map_length in H. unfold enough in F. lia. }
        destruct (G1 O) as (O1 & I1 & E1 & S1). destruct (IH st1 O1 (fun y Hy => I y (or_intror Hy))) as (st2 & E & G2 & B2).
        exists st2. split; [exact E|]. split; [apply (grow_trans _ _ _ G1 G2)|]. destruct (G2 O1) as (_ & _ & E2 & _).
        intros a b [<-|Ha] R; [|apply B2; assumption]. apply E2, B1. destruct R as (t & Ht & R).
        rewrite (get_shape_uniq sch x t (proj1 W) Ht) in Hs. injection Hs as <-. exact R. }
    destruct (G (indices sch) ([], []) (NoDup_nil _)) as (st & -> & GR & B).
    { intros x Hx. unfold indices in Hx; rewrite ?sort_In in Hx; exact Hx. }
    exists (fst st). split; [reflexivity|]. destruct (GR (NoDup_nil _)) as (O & _ & _ & S). split; [exact O|]. intros a b. split.
    - intro E. destruct (S a b E) as [(w & [])|R]. exact R.
    - intro R. apply B; [|exact R]. apply sort_In. destruct R as (s & Hs & _). apply (in_map fst _ _ Hs).
  Qed.
End Build.

(** ** cycles *)
Section Cyclic.
  Variable succ : nat -> list nat.
  Notation E := (fun a b => In b (succ a)).

  Definition ordered (fin : list nat) : Prop := forall l1 x l2, fin = l1 ++ x :: l2 -> forall y, E x y -> In y l2.
  Lemma ordered_nil : ordered [].
  Proof. intros l1 x l2 H. destruct l1; discriminate. Qed.
  Lemma ordered_cons x l : ordered l -> (forall y, E x y -> In y l) -> ordered (x :: l).
  Proof.
    intros O H l1 z l2 Q y Y. destruct l1 as [|w l1]; cbn in Q; [injection Q as <- <-; apply H, Y|]. injection Q as <- ->. apply (O l1 z l2 eq_refl y Y).
  Qed.
  Lemma ordered_tail x l : ordered (x :: l) -> ordered l.
  Proof. intros O l1 z l2 -> y Y. apply (O (x :: l1) z l2 eq_refl y Y). Qed.
  Lemma ordered_reach l a b : ordered l -> In a l -> reach E a b -> In b l.
  Proof.
    intros O Ha R. induction R as [a|a x b H R IH]; [exact Ha|]. apply IH. apply in_split in Ha as (l1 & l2 & ->).
    apply in_or_app. right. right. apply (O l1 a l2 eq_refl x H).
  Qed.
  Lemma ordered_acyclic l a : ordered l -> In a l -> ~ on_cycle E a.
  Proof.
    induction l as [|x l IH]; intros O Ha (b & H & R); [destruct Ha|]. destruct Ha as [<-|Ha].
    - assert (Hb : In b l) by apply (O [] x l eq_refl b H). pose proof (ordered_reach l b x (ordered_tail x l O) Hb R) as Hx.
      apply (IH (ordered_tail x l O) Hx). exists b. auto.
    - apply (IH (ordered_tail x l O) Ha). exists b. auto.
  Qed.

  Variable U : list nat.
  Hypothesis closed : forall a b, In a U -> E a b -> In b U.

  Definition pre (u : nat) (st : visited) : Prop := ordered (snd st) /\ forall x, In x (fst st) -> In x (snd st) \/ reach E x u.
  Definition post (st st' : visited) : Prop :=
    ordered (snd st') /\ incl (fst st) (fst st') /\ incl (snd st) (snd st') /\ forall x, In x (fst st') -> In x (snd st') \/ In x (fst st).

  Lemma visit_ok fuel : forall u st, In u U -> left_over U (fst st) < fuel -> pre u st ->
    match visit fuel succ u st with
    | Some (inl st') => post st st' /\ In u (fst st')
    | Some (inr _) => exists a, on_cycle E a
    | None => False
    end.
  Proof.
    induction fuel as [|fuel IH]; intros u st Hu L [OR ST]; [lia|]. cbn [visit]. destruct (mem u (fst st)) eqn:M.
    - apply mem_In in M. split; [|exact M]. split; [exact OR|]. split; [apply incl_refl|]. split; [apply incl_refl|auto].
    - apply mem_not_In in M. pose proof (left_over_lt U (fst st) u Hu M) as LT.
      assert (SU : forall v, In v (succ u) -> E u v) by auto.
      assert (G : forall vs pre_vs st1, succ u = pre_vs ++ vs -> (forall v, In v pre_vs -> In v (snd st1)) -> ordered (snd st1) ->
        incl (u :: fst st) (fst st1) -> incl (snd st) (snd st1) -> (forall x, In x (fst st1) -> In x (snd st1) \/ In x (u :: fst st)) ->
        match (fix neighbours (vs : list nat) (st : visited) : option (visited + unit) :=
           match vs with
           | [] => Some (inl (fst st, u :: snd st))
           | v :: vs =>
               if negb (mem v (fst st)) then
                 match visit fuel succ v st with
                 | Some (inl st) => neighbours vs st
                 | other => other
                 end
               else if negb (mem v (snd st)) then Some (inr tt)
               else neighbours vs st
           end) vs st1 with
        | Some (inl st') => post st st' /\ In u (fst st')
        | Some (inr _) => exists a, on_cycle E a
        | None => False
        end).
      { induction vs as [|v vs IHv]; intros pv st1 SP DN OR1 I1 I2 D1.
        - rewrite app_nil_r in SP. cbn [fst snd]. split; [|apply I1; left; reflexivity]. split; cbn [fst snd].
          + apply ordered_cons; [exact OR1|]. intros y Y. apply DN. rewrite <- SP. exact Y.
          + split; [intros x Hx; apply I1; right; exact Hx|]. split; [intros x Hx; right; apply I2, Hx|].
            intros x Hx. destruct (D1 x Hx) as [X|[<-|X]]; [left; right; exact X|left; left; reflexivity|right; exact X].
        - assert (Ev : E u v) by (rewrite SP; apply in_or_app; right; left; reflexivity).
          assert (RU : forall x, In x (fst st1) -> In x (snd st1) \/ reach E x u).
          { intros x Hx. destruct (D1 x Hx) as [X|[<-|X]]; [left; exact X|right; apply reach_refl|]. destruct (ST x X) as [Y|Y]; [left; apply I2, Y|right; exact Y]. }
          destruct (mem v (fst st1)) eqn:Mv; cbn [negb].
          + apply mem_In in Mv. destruct (mem v (snd st1)) eqn:Mf; cbn [negb].
            * apply mem_In in Mf. apply (IHv (pv ++ [v])); auto; [rewrite <- app_assoc; exact SP|].
              intros x Hx. apply in_app_or in Hx as [Hx|[<-|[]]]; auto.
            * apply mem_not_In in Mf. exists u. exists v. split; [exact Ev|]. destruct (RU v Mv) as [X|X]; [contradiction|exact X].
          + apply mem_not_In in Mv.
            assert (Lv : left_over U (fst st1) < fuel).
            { pose proof (left_over_mono U _ _ I1) as K. lia. }
            assert (Pv : pre v st1).
            { split; [exact OR1|]. intros x Hx. destruct (RU x Hx) as [X|X]; [left; exact X|right; apply (reach_trans _ _ u _ X), (reach_one E), Ev]. }
            specialize (IH v st1 (closed u v Hu Ev) Lv Pv). destruct (visit fuel succ v st1) as [[st2|]|]; [|exact IH|exact IH].
            destruct IH as [(OR2 & J1 & J2 & D2) Iv]. apply (IHv (pv ++ [v])).
            * rewrite <- app_assoc. exact SP.
            * intros x Hx. apply in_app_or in Hx as [Hx|[<-|[]]]; [apply J2, DN, Hx|]. destruct (D2 v Iv) as [X|X]; [exact X|contradiction].
            * exact OR2.
            * apply (incl_tran I1 J1).
            * apply (incl_tran I2 J2).
            * intros x Hx. destruct (D2 x Hx) as [X|X]; [left; exact X|]. destruct (D1 x X) as [Y|Y]; [left; apply J2, Y|right; exact Y]. }
      apply (G (succ u) [] (u :: fst st, snd st)); auto; cbn [fst snd].
      + intros v [].
      + apply incl_refl.
      + apply incl_refl.
  Qed.

  Lemma visit_all_ok fuel : length U < fuel -> forall us st, incl us U -> ordered (snd st) -> incl (fst st) (snd st) ->
    match visit_all fuel succ us st with
    | Some (inl st') => ordered (snd st') /\ incl us (snd st') /\ incl (snd st) (snd st')
    | Some (inr _) => exists a, on_cycle E a
    | None => False
    end.
  Proof.
    intro F. induction us as [|u us IH]; intros st I O D; cbn [visit_all]; [split; [exact O|]; split; [intros x []|apply incl_refl]|].
    pose proof (visit_ok fuel u st (I u (or_introl eq_refl))) as V. pose proof (left_over_le U (fst st)) as LL.
    specialize (V ltac:(lia)). assert (P : pre u st) by (split; [exact O|intros x Hx; left; apply D, Hx]). specialize (V P).
    destruct (visit fuel succ u st) as [[st1|]|]; [|exact V|exact V]. destruct V as [(O1 & I1 & I2 & D1) Iu].
    assert (DD : incl (fst st1) (snd st1)) by (intros x Hx; destruct (D1 x Hx) as [X|X]; [exact X|apply I2, D, X]).
    specialize (IH st1 (fun y Hy => I y (or_intror Hy)) O1 DD). destruct (visit_all fuel succ us st1) as [[st2|]|]; [|exact IH|exact IH].
    destruct IH as (O2 & J1 & J2). split; [exact O2|]. split; [intros x [<-|Hx]; [apply J2, DD, Iu|apply J1, Hx]|apply (incl_tran I2 J2)].
  Qed.
End Cyclic.

Lemma cyclic_ok {A} (g : graph A) fuel : length (nodes g) < fuel ->
  (is_cyclic_directed fuel g = Some true /\ recursive (edge g)) \/
  (is_cyclic_directed fuel g = Some false /\ ~ recursive (edge g) /\ exists fin, ordered (succs g) fin /\ incl (nodes g) fin).
Proof.
  intro F. unfold is_cyclic_directed.
  assert (CL : forall a b, In a (nodes g) -> In b (succs g a) -> In b (nodes g)) by (intros a b _ H; apply succs_In in H; apply nodes_In; exists a; right; exact H).
  pose proof (visit_all_ok (succs g) (nodes g) CL fuel F (nodes g) ([], []) (incl_refl _) (ordered_nil _) (incl_refl _)) as V.
  destruct (visit_all fuel (succs g) (nodes g) ([], [])) as [[st|]|]; [| |destruct V].
  - right. split; [reflexivity|]. destruct V as (O & I & _). split; [|exists (snd st); split; assumption].
    intros (a & b & H & R). apply (ordered_acyclic (succs g) (snd st) a O); [apply I, nodes_In; exists b; left; exact H|].
    exists b. split; [apply succs_In, H|]. apply (reach_iff (edge g)); [intros; symmetry; apply succs_In|exact R].
  - left. split; [reflexivity|]. destruct V as (a & b & H & R). exists a, b. split; [apply succs_In, H|].
    apply (reach_iff (fun a b => In b (succs g a))); [intros; apply succs_In|exact R].
Qed.

(** ** levels *)
Lemma count_set x y n m : count_of y (set_count x n m) = if Nat.eqb x y then option_map (fun _ => n) (count_of y m) else count_of y m.
Proof.
  induction m as [|[z k] m IH]; cbn [set_count count_of]; [destruct (Nat.eqb x y); reflexivity|].
  destruct (Nat.eqb_spec x z) as [->|NZ]; cbn [count_of].
  - destruct (Nat.eqb_spec z y) as [->|N]; [rewrite Nat.eqb_refl; reflexivity|].
    destruct (Nat.eqb_spec y z); [congruence|reflexivity].
  - destruct (Nat.eqb_spec y z) as [->|N]; [destruct (Nat.eqb_spec x z); [congruence|reflexivity]|exact IH].
Qed.

Definition occ (l : list nat) (x : nat) : nat := count_occ Nat.eq_dec l x.
Lemma occ_cons x l y : occ (x :: l) y = (if Nat.eqb x y then 1 else 0) + occ l y.
Proof. unfold occ. cbn [count_occ]. destruct (Nat.eq_dec x y) as [->|N]; [rewrite Nat.eqb_refl; reflexivity|]. destruct (Nat.eqb_spec x y); [congruence|reflexivity]. Qed.
Lemma occ_app l k y : occ (l ++ k) y = occ l y + occ k y.
Proof. apply count_occ_app. Qed.
Lemma occ_In l x : 0 < occ l x <-> In x l.
Proof. unfold occ. split; intro H; [apply (count_occ_In Nat.eq_dec), H|apply (count_occ_In Nat.eq_dec) in H; exact H]. Qed.

(** working off a list of dependents *)
Lemma done_list_ok ds : forall (c : nat -> nat) rem acc,
  (forall x, In x ds -> count_of x rem = Some (c x)) -> (forall x, In x ds -> occ ds x <= c x) ->
  exists rem' nx, done_list ds (rem, acc) = Some (rem', acc ++ nx) /\
    (forall x k, count_of x rem = Some k -> count_of x rem' = Some (k - occ ds x)) /\
    NoDup nx /\ (forall x, In x nx <-> In x ds /\ occ ds x = c x).
Proof.
  induction ds as [|d ds IH]; intros c rem acc R L; cbn [done_list].
  - exists rem, []. rewrite app_nil_r. split; [reflexivity|]. split; [intros x k Hk; rewrite Hk; unfold occ; cbn; f_equal; lia|].
    split; [constructor|]. intro x. split; [intros []|intros [[] _]].
  - unfold done_one. cbn [fst snd]. rewrite (R d (or_introl eq_refl)).
    pose proof (L d (or_introl eq_refl)) as Ld. rewrite occ_cons, Nat.eqb_refl in Ld. destruct (c d) as [|n] eqn:Cd; [lia|].
    set (c' := fun x => if Nat.eqb d x then n else c x).
    destruct (IH c' (set_count d n rem) (if Nat.eqb n 0 then acc ++ [d] else acc)) as (rem' & nx & E & RM & ND & IN).
    + intros x Hx. rewrite count_set, (R x (or_intror Hx)). unfold c'. destruct (Nat.eqb d x); reflexivity.
    + intros x Hx. unfold c'. specialize (L x (or_intror Hx)). rewrite occ_cons in L. destruct (Nat.eqb_spec d x) as [->|]; lia.
    + rewrite E. destruct (Nat.eqb_spec n 0) as [->|Nn].
      * exists rem', (d :: nx). rewrite <- app_assoc. split; [reflexivity|].
        assert (Z : occ ds d = 0) by lia. assert (ND' : ~ In d ds) by (intro C; apply occ_In in C; lia).
        split; [|split].
        -- intros x k Hk. specialize (RM x (if Nat.eqb d x then 0 else k)). rewrite count_set, Hk in RM. rewrite occ_cons.
           destruct (Nat.eqb_spec d x) as [<-|]; [|rewrite (RM eq_refl); f_equal; lia].
           pose proof (R d (or_introl eq_refl)) as Rd. rewrite Hk in Rd. injection Rd as ->. rewrite (RM eq_refl), Z. f_equal; lia.
        -- constructor; [|exact ND]. intro C. apply IN in C as [C _]. contradiction.
        -- intro x. cbn [In]. rewrite IN, occ_cons. unfold c'. destruct (Nat.eqb_spec d x) as [<-|N].
           ++ split; [intros _; split; [left; reflexivity|lia]|]. intros _. left. reflexivity.
           ++ split; [intros [X|[X Y]]; [congruence|split; [right; exact X|lia]]|]. intros [[X|X] Y]; [congruence|right; split; [exact X|lia]].
      * exists rem', nx. split; [reflexivity|]. split; [|split; [exact ND|]].
        -- intros x k Hk. specialize (RM x (if Nat.eqb d x then n else k)). rewrite count_set, Hk in RM. rewrite occ_cons.
           destruct (Nat.eqb_spec d x) as [<-|]; [|rewrite (RM eq_refl); f_equal; lia].
           pose proof (R d (or_introl eq_refl)) as Rd. rewrite Hk in Rd. injection Rd as ->. rewrite (RM eq_refl). f_equal. lia.
        -- intro x. rewrite IN, occ_cons. cbn [In]. unfold c'. destruct (Nat.eqb_spec d x) as [<-|N].
           ++ split; [intros [X Y]; split; [right; exact X|lia]|]. intros [[X|X] Y]; (split; [apply occ_In; lia|lia]).
           ++ split; [intros [X Y]; split; [right; exact X|lia]|]. intros [[X|X] Y]; [congruence|split; [exact X|lia]].
Qed.

Section Kahn.
  Context {A : Type}.
  Variable g : graph A.

  Definition open (done : list nat) (x : nat) : nat := length (filter (fun e : nat * A => negb (mem (fst e) done)) (out_edges g x)).
  Definition hits (c : list nat) (x : nat) : nat := length (filter (fun e : nat * A => mem (fst e) c) (out_edges g x)).

  Lemma out_edges_node x e : In e (out_edges g x) -> In x (nodes g) /\ In (fst e) (nodes g) /\ edge g x (fst e).
  Proof.
    intro H. assert (E : edge g x (fst e)) by (apply succs_In; unfold succs; apply in_map, H).
    split; [|split]; [apply nodes_In; exists (fst e); left; exact E|apply nodes_In; exists x; right; exact E|exact E].
  Qed.
  Lemma edge_out x y : edge g x y -> exists e, In e (out_edges g x) /\ fst e = y.
  Proof. intro H. apply succs_In in H. unfold succs in H. apply in_map_iff in H as (e & He & H). exists e. auto. Qed.

  Lemma occ_flat_one (x a b : nat) (es : list (nat * A)) :
    occ (flat_map (fun e => if Nat.eqb (fst e) b then [a] else []) es) x = if Nat.eqb a x then length (filter (fun e => Nat.eqb (fst e) b) es) else 0.
  Proof.
    induction es as [|e es IH]; [destruct (Nat.eqb a x); reflexivity|]. cbn [flat_map filter]. rewrite occ_app, IH.
    destruct (Nat.eqb (fst e) b); [rewrite occ_cons; unfold occ; cbn [count_occ]|]; destruct (Nat.eqb a x); cbn [length]; try reflexivity; unfold occ; cbn [count_occ]; lia.
  Qed.
  Lemma occ_dependents b x : occ (dependents_of g b) x = length (filter (fun e : nat * A => Nat.eqb (fst e) b) (out_edges g x)).
  Proof.
    unfold dependents_of.
    assert (H : forall ns, NoDup ns -> occ (flat_map (fun a => flat_map (fun e : nat * A => if Nat.eqb (fst e) b then [a] else []) (out_edges g a)) ns) x =
      if mem x ns then length (filter (fun e : nat * A => Nat.eqb (fst e) b) (out_edges g x)) else 0).
    { induction ns as [|a ns IH]; intro N; [reflexivity|]. inversion N as [|? ? N1 N2]; subst. cbn [flat_map]. rewrite occ_app, occ_flat_one, (IH N2).
      change (mem x (a :: ns)) with (Nat.eqb x a || mem x ns). destruct (Nat.eqb_spec a x) as [->|D].
      - rewrite Nat.eqb_refl. cbn [orb]. apply mem_not_In in N1. rewrite N1. lia.
      - destruct (Nat.eqb_spec x a); [congruence|]. reflexivity. }
    rewrite (H _ (nodes_NoDup g)). destruct (mem x (nodes g)) eqn:M; [reflexivity|]. apply mem_not_In in M.
    destruct (out_edges g x) as [|e es] eqn:O; [reflexivity|]. exfalso. apply M. apply (out_edges_node x e). rewrite O. left. reflexivity.
  Qed.
  Lemma hits_cons c cs x : ~ In c cs -> hits (c :: cs) x = length (filter (fun e : nat * A => Nat.eqb (fst e) c) (out_edges g x)) + hits cs x.
  Proof.
    intro N. unfold hits. induction (out_edges g x) as [|e es IH]; [reflexivity|]. cbn [filter]. change (mem (fst e) (c :: cs)) with (Nat.eqb (fst e) c || mem (fst e) cs).
    destruct (Nat.eqb_spec (fst e) c) as [->|D]; cbn [orb].
    - apply mem_not_In in N. rewrite N. cbn [length]. lia.
    - destruct (mem (fst e) cs); cbn [length]; lia.
  Qed.
  Lemma occ_all cs x : NoDup cs -> occ (flat_map (dependents_of g) cs) x = hits cs x.
  Proof.
    induction cs as [|c cs IH]; intro N; cbn [flat_map].
    - unfold hits. induction (out_edges g x) as [|e es IHe]; [reflexivity|exact IHe].
    - inversion N as [|? ? N1 N2]; subst. rewrite occ_app, (IH N2), occ_dependents, (hits_cons c cs x N1). reflexivity.
  Qed.
  Lemma open_split done c x : (forall y, In y c -> ~ In y done) -> open done x = open (c ++ done) x + hits c x.
  Proof.
    intro D. unfold open, hits. induction (out_edges g x) as [|e es IH]; [reflexivity|]. cbn [filter].
    assert (M : mem (fst e) (c ++ done) = mem (fst e) c || mem (fst e) done) by (unfold mem; apply existsb_app). rewrite M.
    destruct (mem (fst e) c) eqn:M1; cbn [orb negb].
    - apply mem_In in M1. apply D, mem_not_In in M1. rewrite M1. cbn [negb length]. lia.
    - destruct (mem (fst e) done); cbn [negb length]; lia.
  Qed.
  Lemma open_zero done x : open done x = 0 <-> forall y, edge g x y -> In y done.
  Proof.
    unfold open. split.
    - intros Z y Y. destruct (edge_out x y Y) as (e & He & <-). destruct (mem (fst e) done) eqn:M; [apply mem_In, M|].
      apply length_zero_iff_nil in Z. assert (C : In e (filter (fun e : nat * A => negb (mem (fst e) done)) (out_edges g x))) by (apply filter_In; rewrite M; auto).
      rewrite Z in C. destruct C.
    - intro H. destruct (filter (fun e : nat * A => negb (mem (fst e) done)) (out_edges g x)) as [|e es] eqn:E; [reflexivity|]. exfalso.
      assert (C : In e (filter (fun e : nat * A => negb (mem (fst e) done)) (out_edges g x))) by (rewrite E; left; reflexivity).
      apply filter_In in C as [C M]. apply negb_true_iff, mem_not_In in M. apply M, H. apply (out_edges_node x e C).
  Qed.
  Lemma hits_pos c x : 0 < hits c x <-> exists y, In y c /\ edge g x y.
  Proof.
    unfold hits. split.
    - intro H. destruct (filter (fun e : nat * A => mem (fst e) c) (out_edges g x)) as [|e es] eqn:E; [cbn in H; lia|].
      assert (C : In e (filter (fun e : nat * A => mem (fst e) c) (out_edges g x))) by (rewrite E; left; reflexivity).
      apply filter_In in C as [C M]. apply mem_In in M. exists (fst e). split; [exact M|]. apply (out_edges_node x e C).
    - intros (y & Hy & E). destruct (edge_out x y E) as (e & He & <-).
      assert (C : In e (filter (fun e : nat * A => mem (fst e) c) (out_edges g x))) by (apply filter_In; split; [exact He|apply mem_In, Hy]).
      destruct (filter (fun e : nat * A => mem (fst e) c) (out_edges g x)); [destruct C|cbn; lia].
  Qed.

  Definition inv (done : list nat) (rem : counts) (current : list nat) : Prop :=
    NoDup done /\ incl done (nodes g) /\ (forall x, In x done -> forall y, edge g x y -> In y done) /\
    (forall x, In x (nodes g) -> count_of x rem = Some (open done x)) /\
    NoDup current /\ forall x, In x current <-> In x (nodes g) /\ open done x = 0 /\ ~ In x done.

  Lemma inv_step done rem cur : inv done rem cur -> exists rem' nx, done_list (flat_map (dependents_of g) cur) (rem, []) = Some (rem', nx) /\ inv (cur ++ done) rem' (sort nx).
  Proof.
    intros (N & I & CL & R & NC & IC).
    assert (DJ : forall y, In y cur -> ~ In y done) by (intros y Hy; apply IC in Hy; tauto).
    destruct (done_list_ok (flat_map (dependents_of g) cur) (open done) rem []) as (rem' & nx & E & RM & ND & IN).
    - intros x Hx. apply R. apply occ_In in Hx. rewrite (occ_all cur x NC) in Hx. apply hits_pos in Hx as (y & Hy & E).
      apply nodes_In. exists y. left. exact E.
    - intros x Hx. rewrite (occ_all cur x NC), (open_split done cur x DJ). lia.
    - exists rem', nx. split; [exact E|]. split; [|split; [|split; [|split; [|split]]]].
      + apply NoDup_app_intro; auto.
      + intros x Hx. apply in_app_or in Hx as [Hx|Hx]; [apply IC in Hx; tauto|apply I, Hx].
      + intros x Hx y Y. apply in_or_app. right. apply in_app_or in Hx as [Hx|Hx]; [|apply (CL x Hx y Y)].
        apply IC in Hx as (_ & Z & _). apply open_zero with (x := x); assumption.
      + intros x Hx. rewrite (RM x _ (R x Hx)), (occ_all cur x NC), (open_split done cur x DJ). f_equal. lia.
      + apply sort_NoDup, ND.
      + intro x. rewrite sort_In, IN, <- occ_In, (occ_all cur x NC), (open_split done cur x DJ). split.
        * intros [H Q]. apply hits_pos in H as H'. destruct H' as (y & Hy & Y). split; [apply nodes_In; exists y; left; exact Y|]. split; [lia|].
          intro C. apply in_app_or in C as [C|C].
          -- apply IC in C as (_ & Z & _). apply (DJ y Hy). apply open_zero with (x := x); assumption.
          -- apply (DJ y Hy), (CL x C y Y).
        * intros (Hx & Z & C). split; [|lia]. destruct (hits cur x) eqn:H; [|lia]. exfalso. apply C, in_or_app. left.
          apply IC. split; [exact Hx|]. rewrite (open_split done cur x DJ). split; [lia|]. intro D. apply C, in_or_app. right. exact D.
  Qed.

  (** the levels produced from a state of the loop *)
  Definition levels_from (done : list nat) (ls : list (list nat)) : Prop :=
    NoDup (concat ls) /\ (forall x, In x (concat ls) <-> In x (nodes g) /\ ~ In x done) /\
    forall n a b, at_level ls n a -> edge g a b -> In b done \/ exists m, m < n /\ at_level ls m b.

  Lemma level_loop_ok fin : ordered (succs g) fin -> incl (nodes g) fin -> forall fuel done rem cur,
    inv done rem cur -> length (nodes g) < length done + fuel ->
    exists ls, level_loop fuel g rem cur = Some ls /\ levels_from done ls /\ forall l, In l ls -> l <> [].
  Proof.
    intros OF IF. induction fuel as [|fuel IH]; intros done rem cur V F.
    - exfalso. destruct V as (N & I & _). pose proof (NoDup_incl_length N I). lia.
    - cbn [level_loop]. destruct cur as [|c cs].
      + exists []. split; [reflexivity|]. split; [|intros l []]. split; [constructor|]. split.
        * intro x. split; [intros []|]. intros [Hx D]. exfalso. apply D. clear D.
          destruct V as (N & I & CL & R & NC & IC).
          assert (G : forall l, ordered (succs g) l -> forall x, In x l -> In x (nodes g) -> In x done).
          { induction l as [|z l IHl]; intros O y Hy Ny; [destruct Hy|]. destruct Hy as [<-|Hy]; [|apply (IHl (ordered_tail _ _ _ O)); assumption].
            destruct (in_dec Nat.eq_dec z done) as [D|D]; [exact D|]. exfalso. apply (proj2 (IC z)). split; [exact Ny|]. split; [|exact D].
            apply open_zero. intros y Y. apply (IHl (ordered_tail _ _ _ O)); [|apply nodes_In; exists z; right; exact Y].
            apply (O [] z l eq_refl). apply succs_In, Y. }
          apply (G fin OF); [apply IF, Hx|exact Hx].
        * intros n a b (l & Hl & _). destruct n; discriminate.
      + destruct (inv_step done rem (c :: cs) V) as (rem' & nx & E & V'). rewrite E.
        destruct (IH _ _ _ V') as (ls & EL & (N1 & I1 & L1) & NE); [rewrite app_length; cbn [length]; lia|].
        rewrite EL. exists ((c :: cs) :: ls). split; [reflexivity|].
        destruct V as (N & I & CL & R & NC & IC). split.
        * split; [|split].
          -- cbn [concat]. apply NoDup_app_intro; auto. intros x Hx C. apply I1 in C as [_ C]. apply C, in_or_app. left. exact Hx.
          -- intro x. cbn [concat]. rewrite in_app_iff, I1, in_app_iff. split; [intros [H|[H D]]; [apply IC in H; tauto|tauto]|].
             intros [H D]. destruct (in_dec Nat.eq_dec x (c :: cs)); tauto.
          -- intros [|n] a b (l & Hl & Ha) E'; cbn [nth_error] in Hl.
             ++ injection Hl as <-. left. apply IC in Ha as (_ & Z & _). apply open_zero with (x := a); assumption.
             ++ destruct (L1 n a b) as [D|(m & Lm & l2 & Hl2 & Hb)]; [exists l; auto|exact E'| |].
                ** apply in_app_or in D as [D|D]; [right; exists 0; split; [lia|]; exists (c :: cs); auto|left; exact D].
                ** right. exists (S m). split; [lia|]. exists l2. auto.
        * intros l [<-|Hl]; [discriminate|apply NE, Hl].
  Qed.

  Lemma count_remaining x : In x (nodes g) -> count_of x (remaining_deps g) = Some (length (out_edges g x)).
  Proof.
    unfold remaining_deps. induction (nodes g) as [|n ns IH]; [intros []|]. intros [<-|H]; cbn [map count_of]; [rewrite Nat.eqb_refl; reflexivity|].
    destruct (Nat.eqb_spec x n) as [->|]; [reflexivity|apply IH, H].
  Qed.
  Lemma open_nil x : open [] x = length (out_edges g x).
  Proof. unfold open. induction (out_edges g x) as [|e es IH]; [reflexivity|]. cbn [filter]. change (mem (fst e) []) with false. cbn [negb length]. rewrite IH. reflexivity. Qed.

  Lemma map_filter_rem l : map fst (filter (fun nc : nat * nat => snd nc =? 0) (map (fun n => (n, length (out_edges g n))) l)) = filter (fun n => length (out_edges g n) =? 0) l.
  Proof. induction l as [|n l IH]; [reflexivity|]. cbn [map filter snd]. destruct (length (out_edges g n) =? 0); cbn [map fst]; rewrite IH; reflexivity. Qed.
  Theorem topological_ok fin fuel : ordered (succs g) fin -> incl (nodes g) fin -> length (nodes g) < fuel ->
    exists ls, topological_levels fuel g = Some ls /\ levels_from [] ls /\ forall l, In l ls -> l <> [].
  Proof.
    intros OF IF F. unfold topological_levels. apply (level_loop_ok fin OF IF fuel []); [|exact F].
    split; [constructor|]. split; [intros x []|]. split; [intros x []|]. split; [|split].
    - intros x Hx. rewrite open_nil. apply count_remaining, Hx.
    - apply sort_NoDup. unfold remaining_deps. rewrite map_filter_rem. apply NoDup_filter, nodes_NoDup.
    - intro x. rewrite sort_In. unfold remaining_deps. rewrite map_filter_rem, filter_In, Nat.eqb_eq, open_nil. cbn [In]. tauto.
  Qed.
End Kahn.

(** ** the shapes with targets *)
Definition rank (l : list (list nat)) (n : nat) : nat := length (nonempty (firstn n l)).
Lemma nonempty_cons (x : list nat) l : nonempty (x :: l) = match x with [] => nonempty l | _ => x :: nonempty l end.
Proof. destruct x; reflexivity. Qed.
Lemma nonempty_at l : forall n a, at_level (nonempty l) n a -> exists m, at_level l m a /\ rank l m = n.
Proof.
  induction l as [|x l IH]; intros n a (k & Hk & Ha); [destruct n; discriminate|]. rewrite nonempty_cons in Hk. destruct x as [|y x].
  - destruct (IH n a) as (m & (k2 & A1 & A2) & R); [exists k; auto|]. exists (S m). split; [exists k2; auto|]. unfold rank in *. cbn [firstn]. rewrite nonempty_cons. exact R.
  - destruct n as [|n]; cbn [nth_error] in Hk.
    + injection Hk as <-. exists 0. split; [exists (y :: x); auto|reflexivity].
    + destruct (IH n a) as (m & (k2 & A1 & A2) & R); [exists k; auto|]. exists (S m). split; [exists k2; auto|]. unfold rank in *. cbn [firstn]. rewrite nonempty_cons. cbn [length]. rewrite R. reflexivity.
Qed.
Lemma rank_lt l : forall m n b, at_level l m b -> m < n -> rank l m < rank l n.
Proof.
  unfold rank. induction l as [|x l IH]; intros m n b (k & Hk & Hb) L; [destruct m; discriminate|]. destruct n as [|n]; [lia|].
  cbn [firstn]. rewrite nonempty_cons. destruct m as [|m]; cbn [nth_error] in Hk.
  - injection Hk as <-. cbn [firstn]. destruct x; [destruct Hb|]. cbn. lia.
  - cbn [firstn]. rewrite nonempty_cons. assert (K : length (nonempty (firstn m l)) < length (nonempty (firstn n l))) by (apply (IH m n b); [exists k; auto|lia]).
    destruct x; cbn [length]; lia.
Qed.
Lemma concat_nonempty (l : list (list nat)) : concat (nonempty l) = concat l.
Proof. induction l as [|x l IH]; [reflexivity|]. rewrite nonempty_cons. destruct x; cbn [concat]; rewrite <- IH; reflexivity. Qed.
Lemma nonempty_app (l k : list (list nat)) : nonempty (l ++ k) = nonempty l ++ nonempty k.
Proof. apply filter_app. Qed.
Lemma nonempty_In (l : list (list nat)) x : In x (nonempty l) -> x <> [].
Proof. intro H. apply filter_In in H as [_ H]. destruct x; [discriminate|discriminate]. Qed.
Lemma NoDup_app_elim {A} (l m : list A) : NoDup (l ++ m) -> NoDup l /\ NoDup m /\ forall x, In x l -> ~ In x m.
Proof.
  induction l as [|x l IH]; cbn [app]; intro H; [split; [constructor|]; split; [exact H|intros x []]|].
  inversion H as [|? ? H1 H2]; subst. destruct (IH H2) as (N1 & N2 & D). split; [|split].
  - constructor; [|exact N1]. intro C. apply H1, in_or_app. left. exact C.
  - exact N2.
  - intros y [<-|Hy]; [intro C; apply H1, in_or_app; right; exact C|apply D, Hy].
Qed.
Lemma at_level_uniq l : NoDup (concat l) -> forall m n b, at_level l m b -> at_level l n b -> m = n.
Proof.
  induction l as [|x l IH]; intros N m n b (k & Hk & Hb) (j & Hj & Hb'); [destruct m; discriminate|]. cbn [concat] in N. apply NoDup_app_elim in N as (N1 & N2 & D).
  assert (X : forall i j, nth_error l i = Some j -> In b j -> In b (concat l)) by (intros i i2 H1 H2; apply in_concat; exists i2; split; [apply nth_error_In with i, H1|exact H2]).
  destruct m as [|m], n as [|n]; cbn [nth_error] in *.
  - reflexivity.
  - injection Hk as <-. exfalso. apply (D b Hb (X n j Hj Hb')).
  - injection Hj as <-. exfalso. apply (D b Hb' (X m k Hk Hb)).
  - f_equal. apply (IH N2 m n b); [exists k; auto|exists j; auto].
Qed.
Lemma at_level_concat l x : In x (concat l) <-> exists n, at_level l n x.
Proof.
  rewrite in_concat. split.
  - intros (k & Hk & Hx). apply In_nth_error in Hk as [n Hn]. exists n, k. auto.
  - intros (n & k & Hk & Hx). exists k. split; [apply nth_error_In with n, Hk|exact Hx].
Qed.
Lemma has_targets_spec sch x : wf sch -> has_targets sch x = true <-> with_targets sch x.
Proof.
  intros [N _]. unfold has_targets, with_targets. split.
  - destruct (get_shape sch x) as [s|] eqn:E; [|discriminate]. intro T. exists s. split; [apply get_shape_In, E|exact T].
  - intros (s & Hs & T). rewrite (get_shape_uniq sch x s N Hs). exact T.
Qed.

Lemma levels_reach {A} (g : graph A) ls : levels_from g [] ls -> forall a b, reach (edge g) a b -> forall n, at_level ls n a -> exists m, m <= n /\ at_level ls m b.
Proof.
  intros (_ & _ & L) a b R. induction R as [a|a x b H R IH]; intros n Hn; [exists n; auto|].
  destruct (L n a x Hn H) as [[]|(m & Lm & Hm)]. destruct (IH m Hm) as (k & Lk & Hk). exists k. split; [lia|exact Hk].
Qed.
Lemma levels_depends {A} (g : graph A) ls : levels_from g [] ls -> forall a b, depends (edge g) a b -> forall n, at_level ls n a -> exists m, m < n /\ at_level ls m b.
Proof.
  intros LF a b (c & H & R) n Hn. destruct LF as (N & I & L) eqn:E. destruct (L n a c Hn H) as [[]|(m & Lm & Hm)].
  destruct (levels_reach g ls (conj N (conj I L)) c b R m Hm) as (k & Lk & Hk). exists k. split; [lia|exact Hk].
Qed.
Lemma concat_map_filter (f : nat -> bool) l : concat (map (filter f) l) = filter f (concat l).
Proof. induction l as [|x l IH]; [reflexivity|]. cbn [map concat]. rewrite filter_app, IH. reflexivity. Qed.

Lemma by_level_ok sch (g : graph posneg) ls : wf sch -> (forall a b, edge g a b <-> refers sch a b) -> levels_from g [] ls ->
  good_schedule sch (refers sch) (by_level sch ls).
Proof.
  intros W EG LF. pose proof LF as (N & I & L).
  set (iso := sort (filter (has_targets sch) (filter (fun i => negb (mem i (concat ls))) (map fst sch)))).
  set (full := (iso ++ filter (has_targets sch) (hd [] ls)) :: map (filter (has_targets sch)) (tl ls)).
  assert (BL : by_level sch ls = nonempty full).
  { unfold by_level, full. fold iso. replace (match ls with l0 :: _ => filter (has_targets sch) l0 | [] => [] end) with (filter (has_targets sch) (hd [] ls)) by (destruct ls; reflexivity).
    rewrite <- nonempty_app. reflexivity. }
  assert (ISO : forall x, In x iso <-> with_targets sch x /\ ~ In x (concat ls)).
  { intro x. unfold iso. rewrite sort_In, !filter_In, negb_true_iff, mem_not_In, (has_targets_spec sch x W). split; [tauto|]. intros [T C]. split; [|exact T].
    split; [|exact C]. destruct T as (s & Hs & _). apply (in_map fst _ _ Hs). }
  assert (CF : concat full = iso ++ filter (has_targets sch) (concat ls)).
  { unfold full. cbn [concat]. rewrite concat_map_filter, <- app_assoc, <- filter_app. f_equal. f_equal. destruct ls; reflexivity. }
  assert (NF : NoDup (concat full)).
  { rewrite CF. apply NoDup_app_intro; [apply sort_NoDup, NoDup_filter, NoDup_filter, (proj1 W)|apply NoDup_filter, N|].
    intros x Hx C. apply ISO in Hx as [_ Hx]. apply filter_In in C as [C _]. contradiction. }
  assert (AF : forall n x, at_level full n x -> In x iso \/ at_level ls n x).
  { intros [|n] x (k & Hk & Hx); unfold full in Hk; cbn [nth_error] in Hk.
    - injection Hk as <-. apply in_app_or in Hx as [Hx|Hx]; [left; exact Hx|]. right. apply filter_In in Hx as [Hx _]. destruct ls as [|l0 r]; [destruct Hx|]. exists l0. auto.
    - right. rewrite nth_error_map in Hk. destruct (nth_error (tl ls) n) as [l|] eqn:E; [|discriminate]. injection Hk as <-. apply filter_In in Hx as [Hx _].
      destruct ls as [|l0 r]; [destruct n; discriminate|]. exists l. auto. }
  assert (FA : forall n x, at_level ls n x -> with_targets sch x -> at_level full n x).
  { intros n x (k & Hk & Hx) T. apply (has_targets_spec sch x W) in T. destruct ls as [|l0 r]; [destruct n; discriminate|]. destruct n as [|n]; cbn [nth_error] in Hk.
    - injection Hk as ->. eexists. split; [reflexivity|]. apply in_or_app. right. apply filter_In. auto.
    - exists (filter (has_targets sch) k). split; [unfold full; cbn [nth_error tl]; rewrite nth_error_map, Hk; reflexivity|apply filter_In; auto]. }
  assert (TG : forall x, In x (concat full) <-> with_targets sch x).
  { intro x. rewrite CF, in_app_iff, ISO, filter_In, (has_targets_spec sch x W). split; [tauto|]. intro T. destruct (in_dec Nat.eq_dec x (concat ls)); tauto. }
  split; [|split].
  - rewrite BL, concat_nonempty. exact NF.
  - rewrite BL, concat_nonempty. exact TG.
  - intros a b n m D Ha Hb. rewrite BL in *. apply nonempty_at in Ha as (n' & Ha & <-). apply nonempty_at in Hb as (m' & Hb & <-).
    assert (DE : depends (edge g) a b).
    { destruct D as (c & H & R). exists c. split; [apply EG, H|]. apply (reach_iff (refers sch)); [intros; symmetry; apply EG|exact R]. }
    assert (Hn : at_level ls n' a).
    { destruct (AF n' a Ha) as [C|C]; [|exact C]. exfalso. apply ISO in C as [_ C]. apply C. apply I. split; [|intros []].
      destruct DE as (c & H & _). apply nodes_In. exists c. left. exact H. }
    destruct (levels_depends g ls LF a b DE n' Hn) as (k & Lk & Hk).
    assert (m' = k) as -> by (apply (at_level_uniq full NF m' k b Hb), FA; [exact Hk|apply TG, at_level_concat; exists m'; exact Hb]).
    apply (rank_lt full k n' b Hb Lk).
Qed.

Lemma nodes_bound sch (g : graph posneg) : wf sch -> (forall a b, edge g a b <-> refers sch a b) -> length (nodes g) <= length sch.
Proof.
  intros [N C] EG. rewrite <- (map_length fst sch). apply NoDup_incl_length; [apply nodes_NoDup|]. intros x Hx. apply nodes_In in Hx as [y [H|H]]; apply EG in H.
  - destruct H as (s & Hs & _). apply (in_map fst _ _ Hs).
  - apply (C y x). destruct H as (s & Hs & D). exists s. split; [exact Hs|]. destruct D as [(c & Hc & D)|D]; [left; exists c; split; [exact Hc|left; exact D]|right; left; exact D].
Qed.
Lemma recursive_iff (R S : nat -> nat -> Prop) : (forall a b, R a b <-> S a b) -> recursive R -> recursive S.
Proof. intros H (a & b & E & P). exists a, b. split; [apply H, E|apply (reach_iff R); assumption]. Qed.

Theorem compile_ok sch scc fuel : wf sch -> enough sch <= fuel -> exists g, build_graph fuel sch = Some g /\ NoDup (map fst g) /\ (forall a b, edge g a b <-> refers sch a b) /\
  ((recursive (refers sch) /\ compile fuel sch scc = Some (if has_neg_cycle g (scc g) then NegativeCycles else Cycles)) \/
   (~ recursive (refers sch) /\ compile fuel sch scc = Some (Compiled g) /\ exists ls, topological_levels fuel g = Some ls /\ levels_from g [] ls /\ forall l, In l ls -> l <> [])).
Proof.
  intros W F. destruct (build_ok sch W fuel F) as (g & B & O & EG). exists g. split; [exact B|]. split; [exact O|]. split; [exact EG|].
  unfold compile. rewrite B. pose proof (nodes_bound sch g W EG) as NB. unfold enough in F.
  destruct (cyclic_ok g fuel) as [[-> R]|(-> & R & fin & OF & IF)]; [lia| |].
  - left. split; [apply (recursive_iff (edge g)); assumption|reflexivity].
  - right. split; [intro C; apply R, (recursive_iff (refers sch)); [intros; symmetry; apply EG|exact C]|]. split; [reflexivity|].
    apply (topological_ok g fin fuel OF IF). lia.
Qed.

(** ** polarity *)
Lemma all_pos_add (g : graph posneg) a b : (forall e w, In (e, w) g -> w = Pos) -> forall e w, In (e, w) (add_edge g a b Pos) -> w = Pos.
Proof.
  intro H. induction g as [|[[a' b'] w'] g IH]; cbn [add_edge]; intros e w.
  - intros [X|[]]. injection X as _ <-. reflexivity.
  - destruct (Nat.eqb a a' && Nat.eqb b b'); intros [X|X].
    + injection X as _ <-. reflexivity.
    + apply (H e w). right. exact X.
    + apply (H e w). left. exact X.
    + apply (IH (fun e w K => H e w (or_intror K)) e w X).
Qed.
Definition all_pos (st : dstate) : Prop := forall e w, In (e, w) (fst st) -> w = Pos.
Lemma each_all_pos {A} (f : A -> dstate -> option dstate) l : (forall x st st', In x l -> all_pos st -> f x st = Some st' -> all_pos st') ->
  forall st st', all_pos st -> each f l st = Some st' -> all_pos st'.
Proof.
  induction l as [|x l IH]; intros H st st' P E; cbn [each] in E; [injection E as <-; exact P|].
  destruct (f x st) as [st1|] eqn:E1; [|discriminate]. apply (IH (fun y a b Hy => H y a b (or_intror Hy)) st1 st'); [|exact E]. apply (H x st st1 (or_introl eq_refl) P E1).
Qed.
Lemma reference_all_pos rec sch idx i : (forall s st st', get_shape sch i = Some s -> all_pos st -> rec i s st = Some st' -> all_pos st') ->
  forall st st', all_pos st -> reference rec sch idx i Pos st = Some st' -> all_pos st'.
Proof.
  intros H st st' P. unfold reference. destruct (get_shape sch i) as [s|] eqn:G; [|intro E; injection E as <-; exact P].
  destruct (mem i (snd st)).
  - intro E. injection E as <-. intros e w. apply all_pos_add, P.
  - intro E. apply (H s _ st' eq_refl) in E; [exact E|]. intros e w. apply all_pos_add, P.
Qed.
Lemma add_edges_all_pos sch : (forall a b, ~ negates sch a b) -> forall fuel idx s, get_shape sch idx = Some s ->
  forall st st', all_pos st -> add_edges fuel sch idx s Pos st = Some st' -> all_pos st'.
Proof.
  intros NN. induction fuel as [|fuel IH]; intros idx s G st st' P E; [discriminate|]. cbn [add_edges] in E.
  assert (RR : forall i st st', all_pos st -> reference (fun j s0 => add_edges fuel sch j s0 Pos) sch idx i Pos st = Some st' -> all_pos st').
  { intros i. apply reference_all_pos. intros t a b Ht. apply (IH i t Ht). }
  destruct (each (comp_edges (add_edges fuel sch) sch idx Pos) (comps s) st) as [st1|] eqn:E1; [|discriminate].
  assert (P1 : all_pos st1).
  { apply (each_all_pos (comp_edges (add_edges fuel sch) sch idx Pos) (comps s)) with st; [|exact P|exact E1]. intros c a b Hc Pa Ec.
    destruct c as [l|l|l|i|i|i sib|]; cbn [comp_edges] in Ec.
    - revert Pa Ec. apply each_all_pos. intros x a' b' _. apply RR.
    - revert Pa Ec. apply each_all_pos. intros x a' b' _. apply RR.
    - revert Pa Ec. apply each_all_pos. intros x a' b' _. apply RR.
    - exfalso. apply (NN idx i). exists s. split; [apply get_shape_In, G|exact Hc].
    - apply (RR i a b Pa Ec).
    - injection Ec as <-. intros e w. apply all_pos_add, Pa.
    - injection Ec as <-. exact Pa. }
  revert P1 E. apply each_all_pos. intros x a b _. apply RR.
Qed.
Lemma build_all_pos sch fuel g : (forall a b, ~ negates sch a b) -> build_graph fuel sch = Some g -> forall e w, In (e, w) g -> w = Pos.
Proof.
  intros NN E. unfold build_graph in E. destruct (each _ _ _) as [st|] eqn:E1; [|discriminate]. injection E as <-. change (all_pos st).
  refine (each_all_pos _ _ _ ([], []) st _ E1); [|intros e w []]. intros x a b _ P Q. cbn beta in Q. destruct (get_shape sch x) as [s|] eqn:G; [|discriminate].
  apply (add_edges_all_pos sch NN fuel x s G a b P Q).
Qed.
