(** Lemmas on the dependency graph of a schema. *)
From Coq Require Import List Arith Bool Lia.
Import ListNotations.
From Verif Require Import GraphModel GraphSpec GraphLemmas DepModel DepSpec.

(** ** equality *)
Fixpoint cond_size (c : cond) : nat :=
  match c with CondAnd cs => S (fold_right (fun c n => cond_size c + n) 0 cs) | _ => 1 end.
Lemma cond_eqb_eq : forall n a b, cond_size a < n -> cond_eqb a b = true <-> a = b.
Proof.
  induction n as [|n IH]; intros a b L; [lia|]. destruct a as [x|x|l]; destruct b as [y|y|m]; simpl; try (split; congruence).
  - rewrite Nat.eqb_eq. split; congruence.
  - rewrite Nat.eqb_eq. split; congruence.
  - assert (H : (fix go l m := match l, m with
                     | [], [] => true
                     | x :: l', y :: m' => cond_eqb x y && go l' m'
                     | _, _ => false
                     end) l m = true <-> l = m).
    { simpl in L. apply Nat.succ_lt_mono in L. revert m L. induction l as [|c l IHl]; intros m L; destruct m as [|d m]; try (split; congruence).
      simpl in L. rewrite andb_true_iff, (IH c d) by lia. rewrite (IHl m) by lia. split; [intros [-> ->]; reflexivity|].
      intro E. injection E as -> ->. auto. }
    rewrite H. split; congruence.
Qed.
Lemma list_eqb_eq {B} (eqb : B -> B -> bool) (l : list B) : (forall x y, eqb x y = true <-> x = y) ->
  forall m, list_eqb eqb l m = true <-> l = m.
Proof.
  intro H. induction l as [|x l IH]; intros [|y m]; simpl; try (split; congruence).
  rewrite andb_true_iff, H, IH. split; [intros [-> ->]; reflexivity|]. intro E. injection E as -> ->. auto.
Qed.
Lemma sexpr_eqb_eq a b : sexpr_eqb a b = true <-> a = b.
Proof.
  destruct a as [l|l|i|n|n c e| |i|]; destruct b as [m|m|j|k|k d f| |j|]; simpl; try (split; congruence).
  - rewrite (list_eqb_eq Nat.eqb l Nat.eqb_eq). split; congruence.
  - rewrite (list_eqb_eq Nat.eqb l Nat.eqb_eq). split; congruence.
  - rewrite Nat.eqb_eq. split; congruence.
  - rewrite Nat.eqb_eq. split; congruence.
  - rewrite !andb_true_iff, Nat.eqb_eq, (list_eqb_eq Nat.eqb e Nat.eqb_eq), (list_eqb_eq cond_eqb c).
    + split; [intros [[-> ->] ->]; reflexivity|]. intro E. injection E as -> -> ->. auto.
    + intros x y. apply (cond_eqb_eq (S (cond_size x))). lia.
  - rewrite Nat.eqb_eq. split; congruence.
Qed.
Lemma visited_contains_In v e : visited_contains v e = true <-> In e v.
Proof.
  unfold visited_contains. rewrite existsb_exists. split.
  - intros (x & Hx & E). apply sexpr_eqb_eq in E. subst x. exact Hx.
  - intro H. exists e. split; [exact H|]. apply sexpr_eqb_eq. reflexivity.
Qed.

Lemma find_In sch i e : find sch i = Some e -> In (i, e) sch.
Proof.
  induction sch as [|[j c] r IH]; simpl; [discriminate|]. destruct (Nat.eqb i j) eqn:E.
  - apply Nat.eqb_eq in E. subst j. intro H. injection H as ->. left. reflexivity.
  - intro H. right. exact (IH H).
Qed.
Lemma In_find sch i e : NoDup (map fst sch) -> In (i, e) sch -> find sch i = Some e.
Proof.
  induction sch as [|[j c] r IH]; intros N H; [destruct H|]. inversion N as [|? ? N1 N2]; subst. simpl.
  destruct H as [H|H].
  - injection H as -> ->. rewrite Nat.eqb_refl. reflexivity.
  - destruct (Nat.eqb i j) eqn:E; [|exact (IH N2 H)]. apply Nat.eqb_eq in E. subst j. exfalso. apply N1.
    apply in_map_iff. exists (i, e). auto.
Qed.

(** ** edges of one insertion *)
Lemma add_edge_from (g : graph posneg) a b w x : In x (add_edge g a b w) -> x = ((a, b), w) \/ In x g.
Proof.
  induction g as [|[[c d] v] r IH]; simpl; [intros [<-|[]]; left; reflexivity|].
  destruct (Nat.eqb a c && Nat.eqb b d).
  - intros [<-|H]; [left; reflexivity|right; right; exact H].
  - intros [<-|H]; [right; left; reflexivity|]. destruct (IH H); auto.
Qed.
Lemma add_edge_keeps (g : graph posneg) a b w x y : edge g x y -> edge (add_edge g a b w) x y.
Proof.
  intros (v & H). induction g as [|[[c d] u] r IH]; [destruct H|]. simpl.
  destruct (Nat.eqb a c && Nat.eqb b d) eqn:E.
  - apply andb_true_iff in E. destruct E as [E1 E2]. apply Nat.eqb_eq in E1, E2. subst c d.
    destruct H as [H|H]; [injection H as -> -> _; exists w; left; reflexivity|]. exists v. right. exact H.
  - destruct H as [H|H]; [exists v; left; exact H|]. destruct (IH H) as (v' & K). exists v'. right. exact K.
Qed.
Lemma add_edge_new (g : graph posneg) a b w : edge (add_edge g a b w) a b.
Proof.
  exists w. induction g as [|[[c d] u] r IH]; [left; reflexivity|]. simpl.
  destruct (Nat.eqb a c && Nat.eqb b d) eqn:E; [left; reflexivity|right; exact IH].
Qed.

Lemma shape_edges_from source w conds : forall g x, In x (shape_edges source g w conds) ->
  In x g \/ exists t, x = ((source, t), w) /\ In (CondRef t) conds.
Proof.
  induction conds as [|c conds IH]; intros g x H; [left; exact H|]. destruct c as [n|r|cs]; simpl in H.
  - destruct (IH g x H) as [K|(t & -> & K)]; [left; exact K|]. right. exists t. split; [reflexivity|right; exact K].
  - destruct (IH _ x H) as [K|(t & -> & K)].
    + apply add_edge_from in K. destruct K as [->|K]; [|left; exact K]. right. exists r. split; [reflexivity|left; reflexivity].
    + right. exists t. split; [reflexivity|right; exact K].
  - destruct (IH g x H) as [K|(t & -> & K)]; [left; exact K|]. right. exists t. split; [reflexivity|right; exact K].
Qed.
Lemma shape_edges_keeps source w conds : forall g x y, edge g x y -> edge (shape_edges source g w conds) x y.
Proof.
  induction conds as [|c conds IH]; intros g x y H; [exact H|]. destruct c as [n|r|cs]; simpl; apply IH; try exact H.
  apply add_edge_keeps. exact H.
Qed.
Lemma shape_edges_new source w conds t : forall g, In (CondRef t) conds -> edge (shape_edges source g w conds) source t.
Proof.
  induction conds as [|c conds IH]; intros g H; [destruct H|]. destruct H as [->|H]; simpl.
  - apply shape_edges_keeps. apply add_edge_new.
  - destruct c as [n|r|cs]; apply IH; exact H.
Qed.
Lemma add_edge_nodup_keep (g : graph posneg) a b w : NoDup (map fst g) -> NoDup (map fst (add_edge g a b w)).
Proof. apply add_edge_NoDup. Qed.
Lemma shape_edges_nodup source w conds : forall g, NoDup (map fst g) -> NoDup (map fst (shape_edges source g w conds)).
Proof.
  induction conds as [|c conds IH]; intros g N; [exact N|]. destruct c as [n|r|cs]; simpl; apply IH; try exact N.
  apply add_edge_NoDup. exact N.
Qed.

(** ** the traversal *)
Definition sign (w q : posneg) : posneg := match w with Pos => q | Neg => change q end.
Lemma sign_pos q : sign Pos q = q. Proof. reflexivity. Qed.
Lemma sign_change w q : sign (change w) q = sign w (change q).
Proof. destruct w, q; reflexivity. Qed.

(** what an expression mentions directly *)
Definition direct (e : sexpr) (t : nat) : Prop :=
  match e with SShape _ conds _ => In (CondRef t) conds | SRef i => t = i | _ => False end.

Definition trav (sch : schema) (source : nat) (e : sexpr) (w : posneg) (st st' : graph posneg * list sexpr) : Prop :=
  (forall x, In x (fst st') -> In x (fst st) \/ exists q t, x = ((source, t), sign w q) /\ refers sch e q t) /\
  (forall x y, edge (fst st) x y -> edge (fst st') x y) /\
  (forall c, In c (snd st) -> In c (snd st')) /\
  (forall c, c = e \/ (In c (snd st') /\ ~ In c (snd st)) ->
     (forall t, direct c t -> edge (fst st') source t) /\
     (forall i d, In i (children c) -> find sch i = Some d -> In d (snd st'))) /\
  (NoDup (map fst (fst st)) -> NoDup (map fst (fst st'))).

Lemma refers_child sch e i c q t : In i (children e) -> find sch i = Some c -> refers sch c q t ->
  refers sch e (match e with SNot _ => change q | _ => q end) t.
Proof.
  intros Hi F R. destruct e as [l|l|j|n|n cs ex| |j|]; try (destruct Hi).
  - exact (refers_or sch l i c q t Hi F R).
  - exact (refers_and sch l i c q t Hi F R).
  - subst j. exact (refers_not sch i c q t F R).
  - destruct H.
Qed.
Lemma sign_child e w q : sign (child_polarity e w) q = sign w (match e with SNot _ => change q | _ => q end).
Proof. destruct e; try reflexivity. apply sign_change. Qed.

Lemma loop_trav rec sch source e w :
  (forall c st st', rec c st = Some st' -> trav sch source c (child_polarity e w) st st') ->
  forall l st st', (forall i, In i l -> In i (children e)) -> children_loop rec sch l st = Some st' ->
  (forall x, In x (fst st') -> In x (fst st) \/ exists q t, x = ((source, t), sign w q) /\ refers sch e q t) /\
  (forall x y, edge (fst st) x y -> edge (fst st') x y) /\
  (forall c, In c (snd st) -> In c (snd st')) /\
  (forall c, In c (snd st') -> ~ In c (snd st) ->
     (forall t, direct c t -> edge (fst st') source t) /\
     (forall i d, In i (children c) -> find sch i = Some d -> In d (snd st'))) /\
  (forall i d, In i l -> find sch i = Some d -> In d (snd st')) /\
  (NoDup (map fst (fst st)) -> NoDup (map fst (fst st'))).
Proof.
  intros HR. induction l as [|i l IH]; intros st st' HL H; simpl in H.
  - injection H as <-. split; [auto|]. split; [auto|]. split; [auto|]. split; [intros c H1 H2; contradiction|].
    split; [intros j d []|auto].
  - assert (HL' : forall j, In j l -> In j (children e)) by (intros j Hj; apply HL; right; exact Hj).
    destruct (find sch i) as [c|] eqn:F.
    + destruct (visited_contains (snd st) c) eqn:V.
      * apply visited_contains_In in V. destruct (IH st st' HL' H) as (A1 & A2 & A3 & A4 & A5 & A6).
        split; [exact A1|]. split; [exact A2|]. split; [exact A3|]. split; [exact A4|]. split; [|exact A6].
        intros j d [<-|Hj] Fj; [|exact (A5 j d Hj Fj)]. rewrite F in Fj. injection Fj as <-. exact (A3 c V).
      * destruct (rec c (fst st, snd st ++ [c])) as [st1|] eqn:R; [|discriminate].
        assert (V' : ~ In c (snd st)) by (intro K; apply visited_contains_In in K; congruence).
        destruct (HR _ _ _ R) as (B1 & B2 & B3 & B4 & B5). cbn [fst snd] in *.
        destruct (IH st1 st' HL' H) as (A1 & A2 & A3 & A4 & A5 & A6).
        assert (Hc1 : In c (snd st1)) by (apply B3; apply in_or_app; right; left; reflexivity).
        split; [|split; [|split; [|split; [|split]]]].
        -- intros x Hx. destruct (A1 x Hx) as [K|K]; [|right; exact K]. destruct (B1 x K) as [K1|(q & t & -> & K1)]; [left; exact K1|].
           right. exists (match e with SNot _ => change q | _ => q end), t. split; [rewrite sign_child; reflexivity|].
           apply (refers_child sch e i c q t); [apply HL; left; reflexivity|exact F|exact K1].
        -- intros x y K. apply A2, B2. exact K.
        -- intros d K. apply A3, B3. apply in_or_app. left. exact K.
        -- intros d K1 K2. destruct (visited_contains (snd st1) d) eqn:W.
           ++ apply visited_contains_In in W.
              assert (Hd : d = c \/ (In d (snd st1) /\ ~ In d (snd st ++ [c]))).
              { destruct (visited_contains [c] d) eqn:W2.
                - apply visited_contains_In in W2. destruct W2 as [->|[]]. left. reflexivity.
                - right. split; [exact W|]. intro K. apply in_app_or in K. destruct K as [K|K]; [exact (K2 K)|].
                  apply visited_contains_In in K. congruence. }
              destruct (B4 d Hd) as [C1 C2]. split; [intros t Ht; apply A2, C1; exact Ht|].
              intros j x Hj Fj. apply A3. exact (C2 j x Hj Fj).
           ++ apply A4; [exact K1|]. intro K. apply visited_contains_In in K. congruence.
        -- intros j d [<-|Hj] Fj; [|exact (A5 j d Hj Fj)]. rewrite F in Fj. injection Fj as <-. exact (A3 c Hc1).
        -- intro N. apply A6, B5. exact N.
    + destruct (IH st st' HL' H) as (A1 & A2 & A3 & A4 & A5 & A6). split; [exact A1|]. split; [exact A2|]. split; [exact A3|]. split; [exact A4|]. split; [|exact A6].
      intros j d [<-|Hj] Fj; [congruence|exact (A5 j d Hj Fj)].
Qed.

Lemma add_edges_trav sch source fuel : forall e w st st',
  add_edges fuel sch source e w st = Some st' -> trav sch source e w st st'.
Proof.
  induction fuel as [|f IH]; intros e w st st' H; [discriminate|].
  assert (ST : forall e, match e with SShape _ _ _ | SRef _ => False | _ => True end ->
     children_loop (fun c st' => add_edges f sch source c (child_polarity e w) st') sch (children e) st = Some st' ->
     trav sch source e w st st').
  { clear e H. intros e He H.
    destruct (loop_trav (fun c st' => add_edges f sch source c (child_polarity e w) st') sch source e w
                (fun c s s' => IH c (child_polarity e w) s s') (children e) st st' (fun i K => K) H)
      as (A1 & A2 & A3 & A4 & A5 & A6).
    split; [exact A1|]. split; [exact A2|]. split; [exact A3|]. split; [|exact A6].
    intros c [->|[K1 K2]]; [|exact (A4 c K1 K2)]. split; [|exact A5].
    intros t Ht. destruct e; simpl in Ht, He; contradiction. }
  cbn [add_edges] in H. destruct e as [l|l|j|n|n cs ex| |j|]; try (apply ST; [exact I|exact H]).
  - injection H as <-. split; [|split; [|split; [|split]]]; cbn [fst snd].
    + intros x Hx. apply shape_edges_from in Hx. destruct Hx as [K|(t & -> & K)]; [left; exact K|]. right.
      exists Pos, t. split; [destruct w; reflexivity|]. apply (refers_value sch n cs ex (CondRef t)); [exact K|constructor].
    + intros x y K. apply shape_edges_keeps. exact K.
    + auto.
    + intros c [->|[K1 K2]]; [|contradiction]. split; [|intros i d []]. intros t Ht. apply shape_edges_new. exact Ht.
    + apply shape_edges_nodup.
  - injection H as <-. split; [|split; [|split; [|split]]]; cbn [fst snd].
    + intros x Hx. apply add_edge_from in Hx. destruct Hx as [->|K]; [|left; exact K]. right.
      exists Pos, j. split; [destruct w; reflexivity|constructor].
    + intros x y K. apply add_edge_keeps. exact K.
    + auto.
    + intros c [->|[K1 K2]]; [|contradiction]. split; [|intros i d []]. intros t ->. apply add_edge_new.
    + apply add_edge_NoDup.
Qed.

(** an edge for every mention in the expression *)
Lemma add_edges_complete sch source fuel e w g g' v : plain sch -> plain_expr e ->
  add_edges fuel sch source e w (g, []) = Some (g', v) -> forall q t, refers sch e q t -> edge g' source t.
Proof.
  intros PS PE H. destruct (add_edges_trav sch source fuel e w _ _ H) as (_ & _ & _ & A4 & _). cbn [fst snd] in A4.
  assert (CL : forall c, c = e \/ In c v -> plain_expr c -> forall q t, refers sch c q t -> edge g' source t).
  { intros c Hc PC q t R. revert Hc PC.
    assert (K : forall c0, c0 = e \/ In c0 v ->
       (forall t0, direct c0 t0 -> edge g' source t0) /\ (forall i d, In i (children c0) -> find sch i = Some d -> In d v)).
    { intros c0 Hc0. apply A4. destruct Hc0 as [->|Hc0]; [left; reflexivity|]. right. split; [exact Hc0|intros []]. }
    induction R as [t|n cs ex c0 t Hc0 Rc|n cs ex t Ht|l i c0 q t Hi F R IH|l i c0 q t Hi F R IH|i c0 q t F R IH]; intros Hc PC.
    - apply (proj1 (K _ Hc)). reflexivity.
    - destruct PC as [_ PC]. specialize (PC c0 Hc0). apply (proj1 (K _ Hc)). simpl.
      destruct Rc as [t|cs' c1 t H1 H2]; [exact Hc0|]. exfalso. apply (PC t). exact (cond_refers_and cs' c1 t H1 H2).
    - destruct PC as [-> _]. destruct Ht.
    - apply IH; [right; exact (proj2 (K _ Hc) i c0 Hi F)|exact (PS i c0 (find_In sch i c0 F))].
    - apply IH; [right; exact (proj2 (K _ Hc) i c0 Hi F)|exact (PS i c0 (find_In sch i c0 F))].
    - apply IH; [right; exact (proj2 (K _ Hc) i c0 (or_introl eq_refl) F)|exact (PS i c0 (find_In sch i c0 F))]. }
  intros q t R. exact (CL e (or_introl eq_refl) PE q t R).
Qed.

Lemma build_edges_spec sch fuel : forall todo g g',
  (forall i e, In (i, e) todo -> find sch i = Some e) ->
  build_edges fuel sch todo g = Some g' ->
  (forall s t w, In ((s, t), w) g' -> In ((s, t), w) g \/ depends sch s w t) /\
  (forall s t, edge g s t -> edge g' s t) /\
  (NoDup (map fst g) -> NoDup (map fst g')) /\
  (plain sch -> forall s e q t, In (s, e) todo -> refers sch e q t -> edge g' s t).
Proof.
  induction todo as [|[i e] todo IH]; intros g g' HT H.
  - injection H as <-. split; [auto|]. split; [auto|]. split; [auto|]. intros _ s e q t [].
  - cbn [build_edges] in H. destruct (add_edges fuel sch i e Pos (g, [])) as [[g1 v]|] eqn:A; [|discriminate].
    assert (HT' : forall j c, In (j, c) todo -> find sch j = Some c) by (intros j c K; apply HT; right; exact K).
    destruct (IH g1 g' HT' H) as (B1 & B2 & B3 & B4).
    destruct (add_edges_trav sch i fuel e Pos _ _ A) as (T1 & T2 & _ & _ & T5). cbn [fst snd] in *.
    split; [|split; [|split]].
    + intros s t w K. destruct (B1 s t w K) as [K1|K1]; [|right; exact K1].
      destruct (T1 _ K1) as [K2|(q & t0 & E & K2)]; [left; exact K2|]. injection E as -> -> ->. right.
      exists e. split; [apply HT; left; reflexivity|exact K2].
    + intros s t K. apply B2, T2. exact K.
    + intro N. apply B3, T5. exact N.
    + intros P s c q t [K|K] R; [|exact (B4 P s c q t K R)]. injection K as -> ->. apply B2.
      apply (add_edges_complete sch s fuel c Pos g g1 v P) with (q := q); [|exact A|exact R].
      apply (P s c). apply find_In. apply HT. left. reflexivity.
Qed.

(** ** enough fuel *)
Definition unvisited (sch : schema) (v : list sexpr) : nat :=
  length (filter (fun e => negb (visited_contains v e)) (map snd sch)).
Lemma unvisited_lt sch v c : In c (map snd sch) -> ~ In c v -> unvisited sch (v ++ [c]) < unvisited sch v.
Proof.
  intros Hc Hv. apply (filter_length_lt _ _ _ c); [|exact Hc| |].
  - intros x _ K. apply negb_true_iff in K. apply negb_true_iff.
    destruct (visited_contains v x) eqn:W; [|reflexivity]. exfalso. apply visited_contains_In in W.
    assert (visited_contains (v ++ [c]) x = true) by (apply visited_contains_In; apply in_or_app; left; exact W). congruence.
  - apply negb_false_iff. apply visited_contains_In. apply in_or_app. right. left. reflexivity.
  - apply negb_true_iff. destruct (visited_contains v c) eqn:W; [|reflexivity]. exfalso. apply Hv. apply visited_contains_In. exact W.
Qed.
Lemma unvisited_le sch v v' : (forall c, In c v -> In c v') -> unvisited sch v' <= unvisited sch v.
Proof.
  intro S. apply filter_length_le. intros x _ K. apply negb_true_iff in K. apply negb_true_iff.
  destruct (visited_contains v x) eqn:W; [|reflexivity]. exfalso. apply visited_contains_In in W. apply S in W.
  apply visited_contains_In in W. congruence.
Qed.

Lemma add_edges_total sch source fuel : forall e w st, unvisited sch (snd st) < fuel ->
  exists st', add_edges fuel sch source e w st = Some st'.
Proof.
  induction fuel as [|f IH]; intros e w st L; [lia|].
  assert (LP : forall (p : posneg) l st, unvisited sch (snd st) < S f ->
     exists st', children_loop (fun c st' => add_edges f sch source c p st') sch l st = Some st').
  { intros p. induction l as [|i l IHl]; intros s Ls; simpl; [eexists; reflexivity|].
    destruct (find sch i) as [c|] eqn:F; [|apply IHl; exact Ls].
    destruct (visited_contains (snd s) c) eqn:V; [apply IHl; exact Ls|].
    assert (V' : ~ In c (snd s)) by (intro K; apply visited_contains_In in K; congruence).
    assert (Hc : In c (map snd sch)) by (apply in_map_iff; exists (i, c); split; [reflexivity|apply find_In; exact F]).
    destruct (IH c p (fst s, snd s ++ [c])) as (s1 & E1).
    { cbn [snd]. pose proof (unvisited_lt sch (snd s) c Hc V'). lia. }
    rewrite E1. apply IHl. destruct (add_edges_trav _ _ _ _ _ _ _ E1) as (_ & _ & A3 & _). cbn [snd] in A3.
    assert (unvisited sch (snd s1) <= unvisited sch (snd s)).
    { apply unvisited_le. intros d Hd. apply A3. apply in_or_app. left. exact Hd. }
    lia. }
  cbn [add_edges]. destruct e; try (apply LP; exact L); eexists; reflexivity.
Qed.
Lemma build_edges_total sch : forall todo g, exists g', build_edges (S (length sch)) sch todo g = Some g'.
Proof.
  induction todo as [|[i e] todo IH]; intro g; [eexists; reflexivity|]. cbn [build_edges].
  destruct (add_edges_total sch i (S (length sch)) e Pos (g, [])) as ([g1 v] & E).
  - unfold unvisited. cbn [snd]. apply Nat.lt_succ_r. rewrite <- (map_length snd sch).
    etransitivity; [apply (filter_length_le _ (fun _ => true)); auto|].
    induction (map snd sch) as [|x l IHx]; [constructor|]. simpl. lia.
  - rewrite E. apply IH.
Qed.

Lemma dependency_graph_spec sch fuel g : NoDup (map fst sch) -> dependency_graph fuel sch = Some g ->
  (forall s t w, In ((s, t), w) g -> depends sch s w t) /\ NoDup (map fst g) /\
  (plain sch -> forall s w t, depends sch s w t -> edge g s t).
Proof.
  intros N H. destruct (build_edges_spec sch fuel sch [] g (fun i e K => In_find sch i e N K) H) as (B1 & _ & B3 & B4).
  split; [|split].
  - intros s t w K. destruct (B1 s t w K) as [[]|K1]. exact K1.
  - apply B3. constructor.
  - intros P s w t (e & F & R). apply (B4 P s e w t); [apply find_In; exact F|exact R].
Qed.

Lemma dependency_graph_exact sch fuel g : NoDup (map fst sch) -> plain sch -> one_sign sch ->
  dependency_graph fuel sch = Some g -> forall s t w, In ((s, t), w) g <-> depends sch s w t.
Proof.
  intros N P O H s t w. destruct (dependency_graph_spec sch fuel g N H) as (B1 & _ & B3). split; [apply B1|].
  intro D. destruct (B3 P s w t D) as (w' & K). rewrite (O s t w w' D (B1 s t w' K)). exact K.
Qed.

Lemma rejected_has_cycle sch fuel g scc : NoDup (map fst sch) -> dependency_graph fuel sch = Some g ->
  is_scc (edge g) (nodes g) scc -> has_neg_cycle g scc = true -> negative_cycle sch.
Proof.
  intros N H S T. destruct (dependency_graph_spec sch fuel g N H) as (B1 & _ & _).
  apply (has_neg_cycle_spec g scc S) in T. destruct T as (a & b & Na & E & R).
  exists a, b. split; [exact (B1 a b Neg Na)|]. split.
  - destruct E as (w & E). exists w. exact (B1 a b w E).
  - clear Na E. induction R as [x|x y z (w & Hxy) R IH]; [apply reach_refl|].
    apply (reach_step _ x y z); [exists w; exact (B1 x y w Hxy)|exact IH].
Qed.
Lemma exact_rejection sch fuel g scc : NoDup (map fst sch) -> plain sch -> one_sign sch ->
  dependency_graph fuel sch = Some g -> is_scc (edge g) (nodes g) scc -> has_neg_cycle g scc = true <-> negative_cycle sch.
Proof.
  intros N P O H S. split; [apply (rejected_has_cycle sch fuel g scc N H S)|].
  intros (a & b & D & _ & R). pose proof (dependency_graph_exact sch fuel g N P O H) as X.
  apply (has_neg_cycle_spec g scc S). exists a, b. split; [apply X; exact D|]. split; [exists Neg; apply X; exact D|].
  clear D. induction R as [x|x y z (w & Hxy) R IH]; [apply reach_refl|].
  apply (reach_step _ x y z); [exists w; apply X; exact Hxy|exact IH].
Qed.
