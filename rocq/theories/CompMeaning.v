(** A compiled copy of an expression means what the expression means. *)
From Coq Require Import List Arith Bool ZArith Lia Permutation.
Import ListNotations.
From Verif Require Import RbeModel RbeSpec RbeDeriv PendingModel TableModel TableSpec GraphModel EngineModel EngineSpec EngineShape
  CompModel CompSpec CompLemmas.

(** ** splitting *)
Section Split.
  Variables A : Type.
  Variable R : A -> nat -> Prop.

  Lemma F2_perm a a' c : Permutation a a' -> Forall2 R a c -> exists c', Permutation c c' /\ Forall2 R a' c'.
  Proof.
    intro P. revert c. induction P as [|x a a' P IH|x y a|a a' a'' P1 IH1 P2 IH2]; intros c F.
    - inversion F; subst. exists []. split; constructor.
    - inversion F as [|? c0 ? cs H F']; subst. destruct (IH cs F') as (c' & Q & G). exists (c0 :: c'). split; constructor; assumption.
    - inversion F as [|? c0 ? cs H F']; subst. inversion F' as [|? c1 ? cs' H' F'']; subst. exists (c1 :: c0 :: cs').
      split; [constructor|]. constructor; [exact H'|]. constructor; assumption.
    - destruct (IH1 c F) as (c' & Q & G). destruct (IH2 c' G) as (c'' & Q' & G'). exists c''. split; [exact (Permutation_trans Q Q')|exact G'].
  Qed.

  Lemma F2_split a c : Forall2 R a c -> forall b1 b2, beq (bag_of c) (bsum b1 b2) ->
    exists a1 a2 c1 c2, Permutation a (a1 ++ a2) /\ Forall2 R a1 c1 /\ Forall2 R a2 c2 /\ beq (bag_of c1) b1 /\ beq (bag_of c2) b2.
  Proof.
    induction 1 as [|x c a cs H F IH]; intros b1 b2 E.
    - exists [], [], [], []. split; [constructor|]. split; [constructor|]. split; [constructor|].
      apply bsum_zero in E. destruct E as [E1 E2]. split; apply beq_sym; assumption.
    - assert (X : b1 c > 0 \/ b2 c > 0).
      { specialize (E c). unfold bag_of, bsum in E. cbn [count_occ] in E. destruct (Nat.eq_dec c c) as [_|N]; [lia|congruence]. }
      assert (Y : forall b b', b c > 0 -> beq (bag_of (c :: cs)) (bsum b b') -> beq (bag_of cs) (bsum (bminus b c) b')).
      { intros b b' P E'. intro z. specialize (E' z). pose proof (bag_of_cons c cs z) as Q. pose proof (bminus_spec b c P z) as W.
        unfold bsum in *. lia. }
      assert (Z : forall l b, b c > 0 -> beq (bag_of l) (bminus b c) -> beq (bag_of (c :: l)) b).
      { intros l b P E' z. pose proof (bag_of_cons c l z) as Q. pose proof (bminus_spec b c P z) as W. specialize (E' z). unfold bsum in *. lia. }
      destruct X as [X|X].
      + destruct (IH _ _ (Y _ _ X E)) as (a1 & a2 & c1 & c2 & P & F1 & F2 & E1 & E2). exists (x :: a1), a2, (c :: c1), c2.
        split; [cbn; constructor; exact P|]. split; [constructor; assumption|]. split; [exact F2|]. split; [exact (Z _ _ X E1)|exact E2].
      + assert (E' : beq (bag_of (c :: cs)) (bsum b2 b1)) by (intro z; rewrite (E z); unfold bsum; lia).
        destruct (IH b1 (bminus b2 c)) as (a1 & a2 & c1 & c2 & P & F1 & F2 & E1 & E2).
        { intro z. rewrite (Y _ _ X E' z). unfold bsum. lia. }
        exists a1, (x :: a2), c1, (c :: c2). split; [apply Permutation_cons_app; exact P|]. split; [exact F1|]. split; [constructor; assumption|].
        split; [exact E1|exact (Z _ _ X E2)].
  Qed.

  Lemma bag_of_app l m : beq (bag_of (l ++ m)) (bsum (bag_of l) (bag_of m)).
  Proof. intro z. unfold bag_of, bsum. apply count_occ_app. Qed.

  Lemma split_iff (P1 P2 : mbag -> Prop) (Q1 Q2 : list A -> Prop) : RbeDeriv.ext P1 -> RbeDeriv.ext P2 ->
    (forall a, Q1 a <-> exists c, Forall2 R a c /\ P1 (bag_of c)) -> (forall a, Q2 a <-> exists c, Forall2 R a c /\ P2 (bag_of c)) ->
    forall a, (exists a1 a2, Permutation a (a1 ++ a2) /\ Q1 a1 /\ Q2 a2) <->
              (exists c, Forall2 R a c /\ exists b1 b2, beq (bag_of c) (bsum b1 b2) /\ P1 b1 /\ P2 b2).
  Proof.
    intros X1 X2 H1 H2 a. split.
    - intros (a1 & a2 & P & A1 & A2). apply H1 in A1. apply H2 in A2. destruct A1 as (c1 & F1 & B1), A2 as (c2 & F2 & B2).
      destruct (F2_perm (a1 ++ a2) a (c1 ++ c2) (Permutation_sym P) (Forall2_app F1 F2)) as (c & Q & F). exists c. split; [exact F|].
      exists (bag_of c1), (bag_of c2). split; [|split; assumption]. eapply beq_trans; [apply bag_of_perm, Permutation_sym, Q|apply bag_of_app].
    - intros (c & F & b1 & b2 & E & B1 & B2). destruct (F2_split a c F b1 b2 E) as (a1 & a2 & c1 & c2 & P & F1 & F2 & E1 & E2).
      exists a1, a2. split; [exact P|]. split.
      + apply H1. exists c1. split; [exact F1|]. exact (X1 _ _ (beq_sym _ _ E1) B1).
      + apply H2. exists c2. split; [exact F2|]. exact (X2 _ _ (beq_sym _ _ E2) B2).
  Qed.
End Split.

(** ** cardinalities *)
Lemma cnv_min_spec mn m k : cnv_min mn = Ok m -> (at_least mn k <-> m <= k).
Proof.
  unfold cnv_min, at_least. destruct mn as [z|].
  - destruct (Z.ltb_spec z 0); [discriminate|]. intro X. injection X as <-. lia.
  - intro X. injection X as <-. tauto.
Qed.
Lemma cnv_max_spec mx x k : cnv_max mx = Ok x -> (at_most mx k <-> le_max k x).
Proof.
  unfold cnv_max, at_most. destruct mx as [z|].
  - destruct (Z.eqb_spec z (-1)) as [->|N].
    + intro X. injection X as <-. cbn [le_max]. tauto.
    + destruct (Z.ltb_spec z (-1)); [discriminate|]. intro X. injection X as <-. cbn [le_max]. lia.
  - intro X. injection X as <-. cbn [le_max]. tauto.
Qed.

Lemma max_eqb_eq a b : max_eqb a b = true -> a = b.
Proof. destruct a, b; cbn; try discriminate; try reflexivity. intro H. apply Nat.eqb_eq in H. congruence. Qed.
Lemma mk_card_group_lang r m x b : lang (rs_rbe (mk_card_group r (mkCard m x))) b <-> exists k, in_card k (mkCard m x) /\ pow (lang (rs_rbe r)) k b.
Proof.
  unfold mk_card_group. destruct (is_1_1 (mkCard m x)) eqn:E1.
  { unfold is_1_1 in E1. cbn [cmin cmax] in E1. apply andb_true_iff in E1. destruct E1 as [E1 E2]. apply Nat.eqb_eq in E1. apply max_eqb_eq in E2. subst.
    split.
    - intro H. exists 1. split; [split; cbn; lia|]. apply pow_1; [apply lang_ext|exact H].
    - intros (k & [K1 K2] & H). cbn in K1, K2. replace k with 1 in H by lia. exact (proj1 (pow_1 _ _ (lang_ext _)) H). }
  destruct (is_star (mkCard m x)) eqn:E2.
  { unfold is_star in E2. cbn [cmin cmax] in E2. apply andb_true_iff in E2. destruct E2 as [E2 E3]. apply Nat.eqb_eq in E2. apply max_eqb_eq in E3. subst.
    cbn [rs_star rs_rbe lang]. split; intros (k & H); exists k; [split; [split; cbn; [lia|trivial]|exact H]|exact (proj2 H)]. }
  destruct (is_plus (mkCard m x)) eqn:E3.
  { unfold is_plus in E3. cbn [cmin cmax] in E3. apply andb_true_iff in E3. destruct E3 as [E3 E4]. apply Nat.eqb_eq in E3. apply max_eqb_eq in E4. subst.
    cbn [rs_plus rs_rbe lang]. split; intros (k & H); exists k; [split; [split; cbn; [lia|trivial]|apply H]|split; apply H]. }
  reflexivity.
Qed.

(** ** conditions *)
Section Cond.
  Variable eval : nat -> nat -> bool.
  Variable T' : typing.

  Definition cond_sat (c : mcond) (v : nat) : Prop := satisfies eval c v /\ forall v' r, needs c v v' r -> T' v' r = true.

  Lemma cond_sat_single k v : cond_sat (CSingle (Some k)) v <-> eval k v = true.
  Proof. unfold cond_sat. cbn [satisfies needs]. split; [tauto|]. intro H. split; [exact H|intros v' r []]. Qed.
  Lemma cond_sat_none v : cond_sat (CSingle None) v <-> True.
  Proof. unfold cond_sat. cbn [satisfies needs]. split; [tauto|]. intros _. split; [exact Logic.I|intros v' r []]. Qed.
  Lemma cond_sat_ref j v : cond_sat (CRef j) v <-> T' v j = true.
  Proof.
    unfold cond_sat. cbn [satisfies needs]. split; [intros [_ H]; apply H; split; reflexivity|]. intro H. split; [exact Logic.I|].
    intros v' r [-> ->]. exact H.
  Qed.
  Lemma cond_sat_and cs v : cond_sat (CAnd cs) v <-> forall c, In c cs -> cond_sat c v.
  Proof.
    unfold cond_sat. cbn [satisfies needs]. induction cs as [|c cs IH].
    - split; [intros _ c []|]. intros _. split; [exact Logic.I|intros v' r []].
    - cbn [fold_right]. split.
      + intros [[S1 S2] N] d [<-|I]; [split; [exact S1|intros v' r H; apply N; left; exact H]|].
        apply (proj1 IH); [|exact I]. split; [exact S2|]. intros v' r H. apply N. right. exact H.
      + intro H. destruct (proj2 IH) as [S2 N2]; [intros d I; apply H; right; exact I|]. destruct (H c (or_introl eq_refl)) as [S1 N1].
        split; [split; assumption|]. intros v' r [X|X]; [exact (N1 _ _ X)|exact (N2 _ _ X)].
  Qed.
  Lemma cond_sat_acts acts c v : cond_sat (with_acts (act_conds acts) c) v <-> (forall a, In a acts -> eval a v = true) /\ cond_sat c v.
  Proof.
    unfold with_acts. destruct acts as [|a acts]; [cbn; split; [intro H; split; [intros a []|exact H]|tauto]|].
    change (match act_conds (a :: acts) with [] => c | _ => CAnd (act_conds (a :: acts) ++ [c]) end) with (CAnd (act_conds (a :: acts) ++ [c])).
    rewrite cond_sat_and. split.
    - intro H. split.
      + intros b I. apply (proj1 (cond_sat_single b v)). apply H. apply in_app_iff. left. unfold act_conds. apply in_map_iff. exists b. auto.
      + apply H. apply in_app_iff. right. left. reflexivity.
    - intros [H1 H2] d I. apply in_app_iff in I. destruct I as [I|[<-|[]]]; [|exact H2]. unfold act_conds in I. apply in_map_iff in I.
      destruct I as (b & <- & I). apply cond_sat_single. exact (H1 b I).
  Qed.
  Lemma cond_sat_part p v : cond_sat (part_cond p) v <-> forall k, In k (part_kinds p) -> eval k v = true.
  Proof.
    destruct p as [k|ks]; cbn [part_cond part_kinds].
    - rewrite cond_sat_single. split; [intros H k' [<-|[]]; exact H|intro H; apply H; left; reflexivity].
    - rewrite cond_sat_and. split.
      + intros H k I. apply (proj1 (cond_sat_single k v)). apply H. apply in_map_iff. exists k. auto.
      + intros H c I. apply in_map_iff in I. destruct I as (k & <- & I). apply cond_sat_single. exact (H k I).
  Qed.
  Lemma cond_sat_node ps v : cond_sat (node_cond ps) v <-> forall p k, In p ps -> In k (part_kinds p) -> eval k v = true.
  Proof.
    assert (X : cond_sat (CAnd (map part_cond ps)) v <-> forall p k, In p ps -> In k (part_kinds p) -> eval k v = true).
    { rewrite cond_sat_and. split.
      - intros H p k I. apply (proj1 (cond_sat_part p v)). apply H. apply in_map. exact I.
      - intros H c I. apply in_map_iff in I. destruct I as (p & <- & I). apply cond_sat_part. intros k. exact (H p k I). }
    destruct ps as [|p [|q ps]]; [| |exact X].
    - cbn [node_cond]. rewrite cond_sat_none. split; [intros _ p k []|trivial].
    - cbn [node_cond]. rewrite cond_sat_part. split; [intros H p' k [<-|[]]; exact (H k)|]. intros H k. apply H. left. reflexivity.
  Qed.
  Lemma node_satisfies ps v : satisfies eval (node_cond ps) v <-> cond_sat (node_cond ps) v.
  Proof.
    split; [|intros [H _]; exact H]. intro H. split; [exact H|]. intros v' r N. exfalso.
    assert (P : forall p, ~ needs (part_cond p) v v' r).
    { intros [k|ks]; cbn [part_cond needs]; [intros []|]. induction ks as [|k ks IH]; cbn; [intros []|]. intros [[]|X]. exact (IH X). }
    assert (Q : forall ps, ~ needs (CAnd (map part_cond ps)) v v' r).
    { intro l. cbn [needs]. induction l as [|p l IH]; cbn [map fold_right]; [intros []|]. intros [X|X]; [exact (P p X)|exact (IH X)]. }
    destruct ps as [|p [|q ps]]; [destruct N|exact (P p N)|exact (Q _ N)].
  Qed.
End Cond.

(** ** meaning *)
Lemma sat_or eval ext g T l n : sat eval ext g T (AOr l) n <-> exists e, In e l /\ sat eval ext g T e n.
Proof.
  cbn [sat]. induction l as [|e l IH]; [split; [intros []|intros (e & [] & _)]|]. rewrite IH. split.
  - intros [H|(x & I & H)]; [exists e|exists x]; split; auto; [left; reflexivity|right; exact I].
  - intros (x & [<-|I] & H); [left; exact H|right; exists x; auto].
Qed.
Lemma sat_and eval ext g T l n : sat eval ext g T (AAnd l) n <-> forall e, In e l -> sat eval ext g T e n.
Proof.
  cbn [sat]. induction l as [|e l IH]; [split; [intros _ e []|trivial]|]. rewrite IH. split.
  - intros [H1 H2] x [<-|I]; [exact H1|exact (H2 x I)].
  - intro H. split; [apply H; left; reflexivity|]. intros x I. apply H. right. exact I.
Qed.
Lemma constrains_each eval ext g T id l mn mx acts k v :
  constrains eval ext g T (AEach id l mn mx acts) k v <-> exists e, In e l /\ constrains eval ext g T e k v.
Proof.
  cbn [constrains]. induction l as [|e l IH]; [split; [intros []|intros (e & [] & _)]|]. rewrite IH. split.
  - intros [H|(x & I & H)]; [exists e|exists x]; split; auto; [left; reflexivity|right; exact I].
  - intros (x & [<-|I] & H); [left; exact H|right; exists x; auto].
Qed.
Lemma constrains_one eval ext g T id l mn mx acts k v :
  constrains eval ext g T (AOne id l mn mx acts) k v <-> exists e, In e l /\ constrains eval ext g T e k v.
Proof. exact (constrains_each eval ext g T id l mn mx acts k v). Qed.

(** ** heights *)
Fixpoint height (e : ase) : nat :=
  match e with
  | AOr l | AAnd l => S ((fix go l := match l with [] => 0 | e :: r => Nat.max (height e) (go r) end) l)
  | ANot e => S (height e)
  | AShape _ _ (Some te) _ => S (theight te)
  | _ => 0
  end
with theight (e : ate) : nat :=
  match e with
  | AEach _ l _ _ _ | AOne _ l _ _ _ => (fix go l := match l with [] => 0 | e :: r => Nat.max (theight e) (go r) end) l
  | ATc _ _ _ (Some e) _ _ _ => height e
  | _ => 0
  end.
Lemma height_or l e : In e l -> height e < height (AOr l).
Proof. cbn [height]. induction l as [|x l IH]; [intros []|]. intros [<-|I]; [lia|]. specialize (IH I). lia. Qed.
Lemma height_and l e : In e l -> height e < height (AAnd l).
Proof. exact (height_or l e). Qed.
Lemma height_each id l mn mx acts e : In e l -> theight e <= theight (AEach id l mn mx acts).
Proof. cbn [theight]. induction l as [|x l IH]; [intros []|]. intros [<-|I]; [lia|]. specialize (IH I). lia. Qed.
Lemma height_one id l mn mx acts e : In e l -> theight e <= theight (AOne id l mn mx acts).
Proof. exact (height_each id l mn mx acts e). Qed.

Section Meaning.
  Variable eval : nat -> nat -> bool.
  Variable ext : nat -> bool.
  Variable g : rdf.
  Variable St : nat -> option sexpr.
  Variable M : nat -> option nat.
  Variable L0 : nat.
  Variable T T' : typing.
  Hypothesis HT : forall n l i, M l = Some i -> T n l = T' n i.
  Let holds' := holds eval (fun n _ => ext n) (shape_holds eval g) T'.
  (** the typing is right on the compiled copies of the expressions of smaller height *)
  Variable K : nat.
  Hypothesis HI : forall e j n, height e < K -> L0 <= j -> codes St M L0 j e -> (T' n j = true <-> sat eval ext g T e n).

  Let Q (e : ate) : Prop := theight e < K -> forall t c0 c1 r, codes_te St M L0 t e c0 c1 r ->
    c0 <= c1 /\
    (forall arcs, tmatch eval ext g T e arcs <-> exists cs, Forall2 (arc_matches eval T' t) arcs cs /\ lang (rs_rbe r) (bag_of cs)) /\
    (forall k v, constrains eval ext g T e k v <-> exists c, c0 <= c < c1 /\ arc_matches eval T' t (k, v) c) /\
    (forall k, mentions e k <-> exists c cd, c0 <= c < c1 /\ component t c k cd).

  Lemma members_or is l n : (forall e, In e l -> height e < K) -> codes_ses St M L0 is l ->
    ((exists i, In i is /\ T' n i = true) <-> exists e, In e l /\ sat eval ext g T e n).
  Proof.
    intros F C. induction C as [|j e is l (J & C) F2 IH]; [split; intros (x & [] & _)|]. pose proof (HI e j n (F e (or_introl eq_refl)) J C) as X.
    specialize (IH (fun e' I => F e' (or_intror I))). split.
    - intros (i & [<-|I] & H); [exists e; split; [left; reflexivity|apply X; exact H]|]. destruct (proj1 IH) as (e' & I' & H'); [eauto|].
      exists e'. split; [right; exact I'|exact H'].
    - intros (e' & [<-|I] & H); [exists j; split; [left; reflexivity|apply X; exact H]|]. destruct (proj2 IH) as (i & I' & H'); [eauto|].
      exists i. split; [right; exact I'|exact H'].
  Qed.
  Lemma members_and is l n : (forall e, In e l -> height e < K) -> codes_ses St M L0 is l ->
    ((forall i, In i is -> T' n i = true) <-> forall e, In e l -> sat eval ext g T e n).
  Proof.
    intros F C. induction C as [|j e is l (J & C) F2 IH]; [split; intros _ x []|]. pose proof (HI e j n (F e (or_introl eq_refl)) J C) as X.
    specialize (IH (fun e' I => F e' (or_intror I))). split.
    - intros H e' [<-|I]; [apply X, H; left; reflexivity|]. apply IH; [|exact I]. intros i I'. apply H. right. exact I'.
    - intros H i [<-|I]; [apply X, H; left; reflexivity|]. apply IH; [|exact I]. intros i' I'. apply H. right. exact I'.
  Qed.

  Lemma groups_each l : Forall Q l -> (forall e, In e l -> theight e < K) -> forall t c0 c1 rs, codes_tes St M L0 t l c0 c1 rs ->
    c0 <= c1 /\
    (forall arcs, (fix all l arcs := match l with
                                     | [] => arcs = []
                                     | e :: r => exists a b, Permutation arcs (a ++ b) /\ tmatch eval ext g T e a /\ all r b
                                     end) l arcs <->
       exists cs, Forall2 (arc_matches eval T' t) arcs cs /\ sum_of (map lang (map rs_rbe rs)) (bag_of cs)) /\
    (forall arcs, (fix any l := match l with [] => False | e :: r => tmatch eval ext g T e arcs \/ any r end) l <->
       exists cs, Forall2 (arc_matches eval T' t) arcs cs /\ any_of (map lang (map rs_rbe rs)) (bag_of cs)) /\
    (forall k v, (exists e, In e l /\ constrains eval ext g T e k v) <-> exists c, c0 <= c < c1 /\ arc_matches eval T' t (k, v) c) /\
    (forall k, (exists e, In e l /\ mentions e k) <-> exists c cd, c0 <= c < c1 /\ component t c k cd).
  Proof.
    induction 1 as [|e l He Hl IH]; intros HH t c0 c1 [|r rs] C; cbn [codes_tes] in C; [|destruct C|destruct C|].
    - split; [lia|]. split; [|split; [|split]].
      + intro arcs. cbn [map sum_of]. split.
        * intros ->. exists []. split; [constructor|apply beq_refl].
        * intros (cs & F & B). destruct cs as [|c cs]; [inversion F; reflexivity|]. specialize (B c). unfold bag_of, bzero in B.
          cbn [count_occ] in B. destruct (Nat.eq_dec c c); [discriminate|congruence].
      + intro arcs. cbn [map any_of]. split; [intros []|intros (cs & _ & [])].
      + intros k v. split; [intros (e & [] & _)|intros (c & H & _); lia].
      + intros k. split; [intros (e & [] & _)|intros (c & cd & H & _); lia].
    - destruct C as (x & C1 & C2). destruct (He (HH e (or_introl eq_refl)) t c0 x r C1) as (L1 & A1 & B1 & D1).
      destruct (IH (fun e' I => HH e' (or_intror I)) t x c1 rs C2) as (L2 & A2 & O2 & B2 & D2).
      split; [lia|]. split; [|split; [|split]].
      + intro arcs. cbn [map sum_of]. apply split_iff; [apply lang_ext|apply sum_of_ext|exact A1|exact A2].
      + intro arcs. cbn [map any_of]. rewrite A1, O2. split.
        * intros [(cs & F & B)|(cs & F & B)]; exists cs; split; auto.
        * intros (cs & F & [B|B]); [left|right]; exists cs; auto.
      + intros k v. split.
        * intros (e' & [<-|I] & H).
          -- apply B1 in H. destruct H as (c & X & Y). exists c. split; [lia|exact Y].
          -- destruct (proj1 (B2 k v)) as (c & X & Y); [eauto|]. exists c. split; [lia|exact Y].
        * intros (c & X & Y). destruct (Nat.lt_ge_cases c x) as [Z|Z].
          -- exists e. split; [left; reflexivity|]. apply B1. exists c. split; [lia|exact Y].
          -- destruct (proj2 (B2 k v)) as (e' & I & H); [exists c; split; [lia|exact Y]|]. exists e'. split; [right; exact I|exact H].
      + intros k. split.
        * intros (e' & [<-|I] & H).
          -- apply D1 in H. destruct H as (c & cd & X & Y). exists c, cd. split; [lia|exact Y].
          -- destruct (proj1 (D2 k)) as (c & cd & X & Y); [eauto|]. exists c, cd. split; [lia|exact Y].
        * intros (c & cd & X & Y). destruct (Nat.lt_ge_cases c x) as [Z|Z].
          -- exists e. split; [left; reflexivity|]. apply D1. exists c, cd. split; [lia|exact Y].
          -- destruct (proj2 (D2 k)) as (e' & I & H); [exists c, cd; split; [lia|exact Y]|]. exists e'. split; [right; exact I|exact H].
  Qed.

  Lemma group_lang (R : arc -> nat -> Prop) (Pa : list arc -> Prop) r mn mx m x : cnv_min mn = Ok m -> cnv_max mx = Ok x ->
    (forall arcs, Pa arcs <-> exists cs, Forall2 R arcs cs /\ lang (rs_rbe r) (bag_of cs)) ->
    forall arcs, group Pa mn mx arcs <-> exists cs, Forall2 R arcs cs /\ lang (rs_rbe (mk_card_group r (mkCard m x))) (bag_of cs).
  Proof.
    intros E1 E2 H.
    assert (X : forall k arcs, times Pa k arcs <-> exists cs, Forall2 R arcs cs /\ pow (lang (rs_rbe r)) k (bag_of cs)).
    { induction k as [|k IH]; intro arcs; cbn [times pow].
      - split.
        + intros ->. exists []. split; [constructor|apply beq_refl].
        + intros (cs & F & B). destruct cs as [|c cs]; [inversion F; reflexivity|]. specialize (B c). unfold bag_of, bzero in B.
          cbn [count_occ] in B. destruct (Nat.eq_dec c c); [discriminate|congruence].
      - apply split_iff; [apply lang_ext|apply pow_ext|exact H|exact IH]. }
    intro arcs. unfold group. split.
    - intros (k & K1 & K2 & H'). apply X in H'. destruct H' as (cs & F & B). exists cs. split; [exact F|]. apply mk_card_group_lang.
      exists k. split; [|exact B]. split; cbn [cmin cmax]; [apply (cnv_min_spec mn m k E1); exact K1|apply (cnv_max_spec mx x k E2); exact K2].
    - intros (cs & F & B). apply mk_card_group_lang in B. destruct B as (k & [K1 K2] & B). cbn [cmin cmax] in K1, K2.
      exists k. split; [apply (cnv_min_spec mn m k E1); exact K1|]. split; [apply (cnv_max_spec mx x k E2); exact K2|]. apply X. exists cs. auto.
  Qed.

  Lemma component_fun t c k cd k' cd' : component t c k cd -> component t c k' cd' -> k = k' /\ cd = cd'.
  Proof. intros [A B] [A' B']. split; congruence. Qed.

  Lemma value_meaning o c v : match o with Some e => height e < K | None => True end -> cond_codes M L0 St o c ->
    (cond_sat eval T' c v <-> match o with None => True | Some e => sat eval ext g T e v end).
  Proof.
    destruct o as [e|]; cbn [cond_codes]; intros Pe C; [|subst c; rewrite cond_sat_none; tauto].
    assert (D : forall j, c = CRef j /\ L0 <= j /\ codes St M L0 j e -> (cond_sat eval T' c v <-> sat eval ext g T e v)).
    { intros j (-> & J & Cj). rewrite cond_sat_ref. exact (HI e j v Pe J Cj). }
    destruct e as [l|l|e|ps|closed extra o ex| |r]; try (destruct C as (j & C); exact (D j C)).
    - subst c. apply cond_sat_node.
    - destruct C as (j & Mj & ->). rewrite cond_sat_ref. cbn [sat]. rewrite (HT v r j Mj). tauto.
  Qed.

  Lemma tc_arc t c0 p inv c acts k v c' : component t c0 (predicate_of p inv) (with_acts (act_conds acts) c) ->
    (c' = c0 /\ arc_matches eval T' t (k, v) c' <->
     c' = c0 /\ k = predicate_of p inv /\ cond_sat eval T' c v /\ forall a, In a acts -> eval a v = true).
  Proof.
    intro C. split.
    - intros (-> & cd & C' & S & N). cbn [fst snd] in *. destruct (component_fun _ _ _ _ _ _ C C') as [<- <-].
      split; [reflexivity|]. split; [reflexivity|]. apply and_comm. apply cond_sat_acts. split; assumption.
    - intros (-> & -> & S & A). split; [reflexivity|]. exists (with_acts (act_conds acts) c). split; [exact C|]. apply cond_sat_acts. split; assumption.
  Qed.

  Lemma te_meaning e : Q e.
  Proof.
    revert e. apply (proj2 (A := forall e : ase, True)). apply (ase_ate_ind (fun _ => True)); try exact (fun _ => Logic.I); try (intros; exact Logic.I).
    - intros id l mn mx acts F HK t c0 c1 r C. apply codes_each in C. destruct C as (rs & m & x & E1 & E2 & -> & C).
      destruct (groups_each l F (fun e I => Nat.le_lt_trans _ _ _ (height_each id l mn mx acts e I) HK) t c0 c1 rs C) as (LE & A & _ & B & D). split; [exact LE|]. split; [|split].
      + intro arcs. cbn [tmatch]. apply (group_lang (arc_matches eval T' t) _ (rs_and rs) mn mx m x E1 E2). exact A.
      + intros k v. rewrite constrains_each. apply B.
      + intro k. rewrite mentions_each. apply D.
    - intros id l mn mx acts F HK t c0 c1 r C. apply codes_one in C. destruct C as (rs & m & x & E1 & E2 & -> & C).
      destruct (groups_each l F (fun e I => Nat.le_lt_trans _ _ _ (height_one id l mn mx acts e I) HK) t c0 c1 rs C) as (LE & _ & A & B & D). split; [exact LE|]. split; [|split].
      + intro arcs. cbn [tmatch]. apply (group_lang (arc_matches eval T' t) _ (rs_or rs) mn mx m x E1 E2). exact A.
      + intros k v. rewrite constrains_one. apply B.
      + intro k. rewrite mentions_one. apply D.
    - intros id inv p o mn mx acts _ HK t c0 c1 r C. cbn [codes_te] in C.
      destruct C as (m & x & c & E1 & E2 & -> & -> & CP & CC).
      assert (Ho : match o with Some e => height e < K | None => True end) by (destruct o; [exact HK|exact Logic.I]).
      pose proof (fun v => value_meaning o c v Ho CC) as VM.
      assert (TA : forall k v c', c' = c0 /\ arc_matches eval T' t (k, v) c' <-> c' = c0 /\ k = predicate_of p inv /\
          match o with None => True | Some e => sat eval ext g T e v end /\ forall a, In a acts -> eval a v = true).
      { intros k v c'. rewrite (tc_arc t c0 p inv c acts k v c' CP), VM. tauto. }
      split; [lia|]. split; [|split].
      + intro arcs. cbn [tmatch rs_symbol rs_rbe lang]. unfold in_card. cbn [cmin cmax].
        rewrite (cnv_min_spec mn m _ E1), (cnv_max_spec mx x _ E2). split.
        * intros (K1 & K2 & H). exists (repeat c0 (length arcs)). split; [|split; [|split]].
          -- clear K1 K2. induction arcs as [|[k v] arcs IH]; [constructor|]. cbn [length repeat]. constructor.
             ++ apply (TA k v c0). split; [reflexivity|]. apply H. left. reflexivity.
             ++ apply IH. intros k' v' I. apply H. right. exact I.
          -- intros a N. unfold bag_of. apply count_occ_not_In. intro I. apply repeat_spec in I. congruence.
          -- unfold bag_of. rewrite count_occ_repeat_eq by reflexivity. exact K1.
          -- unfold bag_of. rewrite count_occ_repeat_eq by reflexivity. exact K2.
        * intros (cs & F & Z & K1 & K2).
          assert (AL : forall c', In c' cs -> c' = c0).
          { intros c' I. destruct (Nat.eq_dec c' c0) as [Y|N]; [exact Y|]. specialize (Z c' N). unfold bag_of in Z. apply count_occ_not_In in Z. destruct (Z I). }
          assert (LN : bag_of cs c0 = length arcs).
          { clear -F AL. unfold bag_of. induction F as [|kv c' l cs H F IH]; [reflexivity|]. cbn [count_occ length].
            rewrite (AL c' (or_introl eq_refl)). destruct (Nat.eq_dec c0 c0) as [_|N]; [|congruence]. f_equal. apply IH. intros d I. apply AL. right. exact I. }
          rewrite LN in K1, K2. split; [exact K1|]. split; [exact K2|]. intros k v I.
          clear -F AL TA I. induction F as [|kv c' l cs H F IH]; [destruct I|]. destruct I as [->|I].
          -- apply (proj1 (TA k v c')). split; [apply AL; left; reflexivity|exact H].
          -- apply IH; [|exact I]. intros d J. apply AL. right. exact J.
      + intros k v. cbn [constrains]. split.
        * intro H. exists c0. split; [lia|]. apply (TA k v c0). split; [reflexivity|exact H].
        * intros (c' & R & H). apply (proj1 (TA k v c')). split; [lia|exact H].
      + intro k. cbn [mentions]. split.
        * intros ->. exists c0, (with_acts (act_conds acts) c). split; [lia|exact CP].
        * intros (c' & cd & R & H). assert (c' = c0) as -> by lia. exact (proj1 (component_fun _ _ _ _ _ _ H CP)).
    - intros r HK t c0 c1 r' C. destruct C.
  Qed.

  Lemma meaning e : height e <= K -> forall i n se, codes St M L0 i e -> St i = Some se -> (holds' n i se <-> sat eval ext g T e n).
  Proof.
    destruct e as [l|l|e|ps|closed extra o ex| |r]; [revert l|revert l|revert e|revert ps|revert closed extra o ex| |revert r].
    - intros l HK i n se C E. apply codes_or in C. destruct C as (is & E' & C). assert (se = EOr is) as -> by congruence.
      rewrite sat_or. exact (members_or is l n (fun e I => Nat.lt_le_trans _ _ _ (height_or l e I) HK) C).
    - intros l HK i n se C E. apply codes_and in C. destruct C as (is & E' & C). assert (se = EAnd is) as -> by congruence.
      rewrite sat_and. exact (members_and is l n (fun e I => Nat.lt_le_trans _ _ _ (height_and l e I) HK) C).
    - intros e HK i n se C E. cbn [codes] in C. destruct C as (j & E' & J & C). assert (se = ENot j) as -> by congruence.
      cbn [sat]. pose proof (HI e j n HK J C) as X. unfold holds'. cbn [holds]. destruct (T' n j); split; try congruence.
      + intro H. exfalso. apply H, X. reflexivity.
      + intros _ H. apply X in H. discriminate.
    - intros ps _ i n se C E. cbn [codes] in C. assert (se = ENode (node_cond ps)) as -> by congruence.
      unfold holds'. cbn [holds sat]. rewrite (node_satisfies eval T'). apply cond_sat_node.
    - intros closed extra o ex HK i n se C E. cbn [codes] in C. destruct C as (t & ps & exts & E' & _ & C).
      assert (se = EShape (mkShape (cnv_closed closed) (cnv_extra extra) t ps exts)) as -> by congruence. clear E E'.
      unfold holds', shape_holds. cbn [holds s_table s_extra s_closed sat].
      assert (CL : cnv_closed closed = false <-> closed <> Some true) by (destruct closed as [[]|]; cbn; split; congruence).
      assert (EX : forall k, In k (cnv_extra extra) <-> exists p, In p (match extra with Some l => l | None => [] end) /\ k = direct p).
      { intro k. destruct extra as [l|]; cbn [cnv_extra]; [|split; [intros []|intros (p & [] & _)]]. rewrite in_map_iff. split; intros (p & A & B); exists p; auto. }
      destruct o as [te|].
      + destruct C as (t0 & r & -> & B & _ & C & _). destruct (te_meaning te HK t0 0 _ r C) as (_ & A1 & A2 & A3).
        assert (MN : forall k, mentioned (with_rbe r t0) k <-> mentions te k).
        { intro k. rewrite A3. split.
          - intros (c & cd & D). exists c, cd. split; [|exact D]. split; [lia|]. destruct D as [_ D]. apply nth_error_Some. cbn in D. congruence.
          - intros (c & cd & _ & D). exists c, cd. exact D. }
        assert (CN : forall k v, (exists c, arc_matches eval T' (with_rbe r t0) (k, v) c) <-> constrains eval ext g T te k v).
        { intros k v. rewrite A2. split.
          - intros (c & cd & D & X). exists c. split; [|exists cd; split; [exact D|exact X]]. split; [lia|]. destruct D as [_ D]. apply nth_error_Some. cbn in D. congruence.
          - intros (c & _ & X). exists c. exact X. }
        split.
        * intros (matched & rest & cs & NB & F & LG & R). exists matched, rest. split; [exact NB|]. split; [apply A1; exists cs; split; assumption|].
          intros k v I D. destruct (R k v I D) as [R1 R2]. split.
          -- intro H. apply MN in H. destruct (R1 H) as [X Y]. split; [apply EX; exact X|]. intro Z. apply Y, CN, Z.
          -- intro H. apply CL, R2. intro Z. apply H, MN, Z.
        * intros (matched & rest & NB & TM & R). apply A1 in TM. destruct TM as (cs & F & LG). exists matched, rest, cs. split; [exact NB|].
          split; [exact F|]. split; [exact LG|]. intros k v I D. destruct (R k v I D) as [R1 R2]. split.
          -- intro H. apply MN in H. destruct (R1 H) as [X Y]. split; [apply EX; exact X|]. intro Z. apply Y, CN, Z.
          -- intro H. apply CL, R2. intro Z. apply H, MN, Z.
      + destruct C as [-> ->].
        assert (NC : forall c k cd, ~ component t_new c k cd) by (intros [|c] k cd [X _]; discriminate).
        split.
        * intros (matched & rest & cs & NB & F & LG & R). exists matched, rest. split; [exact NB|]. split.
          -- destruct F as [|kv c l cs (cd & D & _) F]; [reflexivity|destruct (NC _ _ _ D)].
          -- intros k v I D. apply CL. apply (R k v I D). intros (c & cd & X). exact (NC _ _ _ X).
        * intros (matched & rest & NB & -> & R). exists [], rest, []. split; [exact NB|]. split; [constructor|]. split; [apply beq_refl|].
          intros k v I D. split; [intros (c & cd & X); destruct (NC _ _ _ X)|]. intros _. apply CL. exact (R k v I D).
    - intros _ i n se C E. cbn [codes] in C. assert (se = EExternal) as -> by congruence. reflexivity.
    - intros r _ i n se C E. cbn [codes] in C. destruct C as (j & E' & Mj). assert (se = ERef j) as -> by congruence.
      unfold holds'. cbn [holds sat]. rewrite (HT n r j Mj). tauto.
  Qed.
End Meaning.

Lemma codes_some St M L0 i e : codes St M L0 i e -> exists se, St i = Some se.
Proof.
  destruct e as [l|l|e|ps|closed extra o ex| |r]; [rewrite codes_or|rewrite codes_and|..]; cbn [codes].
  - intros (is & A & _). eauto.
  - intros (is & A & _). eauto.
  - intros (is & A & _). eauto.
  - eauto.
  - intros (t & ps & exts & A & _). eauto.
  - eauto.
  - intros (j & A & _). eauto.
Qed.


(** a typing that solves the equations of the indices made inside expressions is right on all of them *)
Lemma internal_right eval ext g St M L0 (T T' : typing) :
  (forall n l i, M l = Some i -> T n l = T' n i) ->
  (forall j se n, L0 <= j -> St j = Some se -> (T' n j = true <-> holds eval (fun n _ => ext n) (shape_holds eval g) T' n j se)) ->
  forall e j n, L0 <= j -> codes St M L0 j e -> (T' n j = true <-> sat eval ext g T e n).
Proof.
  intros HT EQ.
  assert (X : forall K e j n, height e < K -> L0 <= j -> codes St M L0 j e -> (T' n j = true <-> sat eval ext g T e n)).
  { induction K as [|K IH]; intros e j n H J C; [lia|]. destruct (codes_some _ _ _ _ _ C) as (se & E). rewrite (EQ j se n J E).
    apply (meaning eval ext g St M L0 T T' HT K IH e); [lia|exact C|exact E]. }
  intros e j n. apply (X (S (height e))). lia.
Qed.
