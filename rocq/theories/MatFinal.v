(** A materialised graph gives the root the shape to start from. *)
From Coq Require Import List Arith Bool ZArith Lia Permutation.
Import ListNotations.
From Verif Require Import EngineModel EngineSpec CompModel CompSpec MatModel MatSpec MatLemmas.

Lemma direct_inj p q : direct p = direct q -> p = q.
Proof. unfold direct. lia. Qed.
Lemma direct_inverse p q : direct p <> EngineModel.inverse q.
Proof. unfold direct, EngineModel.inverse. lia. Qed.
Lemma is_direct_inverse p : is_direct (EngineModel.inverse p) = false.
Proof. unfold is_direct, EngineModel.inverse. rewrite Nat.add_1_r. rewrite Nat.even_succ. rewrite <- Nat.negb_even. rewrite Nat.even_mul. reflexivity. Qed.
Lemma predicate_direct p inv : inv <> Some true -> predicate_of p inv = direct p.
Proof. destruct inv as [[|]|]; cbn; [congruence|reflexivity|reflexivity]. Qed.

Definition pair_dec (a b : nat * nat) : {a = b} + {a <> b}.
Proof. decide equality; apply Nat.eq_dec. Defined.

(** the arcs into a node *)
Definition incoming (g : rdf) (n : nat) : list (nat * nat) :=
  nodup pair_dec (map (fun t => let '(s, p, o) := t in (EngineModel.inverse p, s)) (filter (fun t => let '(s, p, o) := t in Nat.eqb o n) g)).
Lemma incoming_in g n k v : In (k, v) (incoming g n) <-> exists p, k = EngineModel.inverse p /\ In (v, p, n) g.
Proof.
  unfold incoming. rewrite nodup_In, in_map_iff. split.
  - intros ([[s p] o] & E & I). apply filter_In in I. destruct I as [I O]. apply Nat.eqb_eq in O. subst o. injection E as <- <-. eauto.
  - intros (p & -> & I). exists (v, p, n). split; [reflexivity|]. apply filter_In. split; [exact I|apply Nat.eqb_refl].
Qed.
(** the arcs out of a node with those into it are its neighbourhood *)
Lemma neighbourhood_of g n arcs : NoDup arcs -> (forall k v, In (k, v) arcs <-> exists p, k = direct p /\ In (n, p, v) g) ->
  neighbourhood g n (arcs ++ incoming g n).
Proof.
  intros N A. split.
  - assert (NI : NoDup (incoming g n)) by apply NoDup_nodup.
    assert (D : forall a, In a arcs -> ~ In a (incoming g n)).
    { intros [k v] I J. apply A in I. destruct I as (p & -> & _). apply incoming_in in J. destruct J as (q & E & _). exact (direct_inverse p q E). }
    revert N D. clear A. induction arcs as [|a r IH]; intros N D; cbn; [exact NI|]. inversion N; subst. constructor.
    + rewrite in_app_iff. intros [I|I]; [contradiction|]. apply (D a); [left; reflexivity|exact I].
    + apply IH; [assumption|]. intros b I. apply D. right. exact I.
  - intros k v. rewrite in_app_iff, A, incoming_in. split.
    + intros [(p & H)|(p & H)]; exists p; auto.
    + intros (p & [H|H]); [left|right]; exists p; auto.
Qed.
Lemma NoDup_app_disjoint {A} (l r : list A) : NoDup l -> NoDup r -> (forall a, In a l -> ~ In a r) -> NoDup (l ++ r).
Proof.
  intros N NR D. induction l as [|a l IH]; cbn; [exact NR|]. inversion N; subst. constructor.
  - rewrite in_app_iff. intros [I|I]; [contradiction|]. exact (D a (or_introl eq_refl) I).
  - apply IH; [assumption|]. intros b I. apply D. right. exact I.
Qed.
Lemma NoDup_app_inv {A} (l r : list A) : NoDup (l ++ r) -> NoDup l /\ NoDup r /\ forall a, In a l -> ~ In a r.
Proof.
  induction l as [|a l IH]; cbn; intro N; [split; [constructor|split; [exact N|intros a []]]|]. inversion N; subst. destruct (IH H2) as (N1 & N2 & D).
  split; [constructor; [intro I; apply H1; apply in_app_iff; auto|exact N1]|]. split; [exact N2|].
  intros b [<-|I]; [intro J; apply H1; apply in_app_iff; auto|apply D, I].
Qed.

Section Final.
  Variable eval : nat -> nat -> bool.
  Variable ext : nat -> bool.
  Variable bnode : nat -> nat.
  Variable key values : nat -> option nat.
  Variable sch : aschema.
  Hypothesis fresh_bnodes : forall i j, bnode i = bnode j -> i = j.
  Hypothesis FS : fillable_schema eval ext key values sch.

  Notation gen_se := (gen_se bnode key values sch).
  Notation gen_te := (gen_te bnode key values sch).
  Notation offered := (offered key values).
  Notation silent := (silent key values).
  Notation fillable := (fillable eval ext key values).
  Notation fillable_te := (fillable_te eval ext key values).

  (** [G] has the arcs of [g] out of the node *)
  Definition same_out (g G : rdf) (n : nat) : Prop := forall p v, In (n, p, v) G <-> In (n, p, v) g.
  (** and out of the blank nodes made in between *)
  Definition same_new (lo hi : nat) (g G : rdf) : Prop := forall k, lo < k <= hi -> same_out g G (bnode k).
  (** the pairs of nodes and labels hold *)
  Definition supported (G : rdf) (T : nat -> nat -> bool) (ps : list (nat * nat)) : Prop :=
    forall x j, In (x, j) ps -> exists e, defines [] sch j e /\ sat eval ext G T e x.
  Definition contains (T : nat -> nat -> bool) (ps : list (nat * nat)) : Prop := forall x j, In (x, j) ps -> T x j = true.
  (** nothing has been said yet about the blank nodes to come *)
  Definition untouched (m : mat) : Prop := forall k p v, m_counter m < k -> ~ In (bnode k, p, v) (m_graph m).
  (** other nodes are left alone *)
  Definition framed (n : nat) (m m' : mat) : Prop :=
    m_counter m <= m_counter m' /\ untouched m' /\
    forall s p v, s <> n -> (forall k, m_counter m < k <= m_counter m' -> s <> bnode k) -> (In (s, p, v) (m_graph m') <-> In (s, p, v) (m_graph m)).

  Definition se_right (f : nat) : Prop :=
    forall e n m m', gen_se f e n m = Ok m' -> fillable e -> untouched m -> (forall p v, ~ In (n, p, v) (m_graph m)) ->
      (forall k, m_counter m < k -> n <> bnode k) ->
      framed n m m' /\
      exists ps, forall G T, same_out (m_graph m') G n -> same_new (m_counter m) (m_counter m') (m_graph m') G -> contains T ps ->
        sat eval ext G T e n /\ supported G T ps.
  Definition te_right (f : nat) : Prop :=
    forall e n m m', gen_te f e n m = Ok m' -> fillable_te e -> NoDup (predicates e) -> untouched m ->
      (forall p v, In (direct p) (predicates e) -> ~ In (n, p, v) (m_graph m)) -> (forall k, m_counter m < k -> n <> bnode k) ->
      framed n m m' /\
      exists arcs, NoDup arcs /\ (forall k v, In (k, v) arcs -> In k (predicates e) /\ exists p, k = direct p) /\
        (forall p v, In (n, p, v) (m_graph m') <-> In (n, p, v) (m_graph m) \/ In (direct p, v) arcs) /\
        exists ps, forall G T, same_new (m_counter m) (m_counter m') (m_graph m') G -> contains T ps ->
          tmatch eval ext G T e arcs /\ supported G T ps.

  Lemma framed_trans n m m1 m2 : framed n m m1 -> framed n m1 m2 -> framed n m m2.
  Proof.
    intros (L1 & U1 & F1) (L2 & U2 & F2). split; [lia|]. split; [exact U2|]. intros s p v N B.
    rewrite F2; [apply F1; [exact N|]|exact N|]; intros k K; apply B; lia.
  Qed.
  Lemma framed_refl n m : untouched m -> framed n m m.
  Proof. intro U. split; [lia|]. split; [exact U|]. intros; reflexivity. Qed.

  (** the new nodes of the first part are not touched by the second *)
  Lemma same_new_split n m m1 m2 G : framed n m m1 -> framed n m1 m2 -> (forall k, m_counter m < k -> n <> bnode k) ->
    same_new (m_counter m) (m_counter m2) (m_graph m2) G ->
    same_new (m_counter m) (m_counter m1) (m_graph m1) G /\ same_new (m_counter m1) (m_counter m2) (m_graph m2) G.
  Proof.
    intros (L1 & U1 & F1) (L2 & U2 & F2) NB S. split; [|intros k K; apply S; lia].
    intros k K p v. rewrite (S k ltac:(lia) p v). apply F2; [intro E; exact (NB k (proj1 K) (eq_sym E))|].
    intros j J E. apply fresh_bnodes in E. lia.
  Qed.

  Lemma each_right f n : te_right f -> forall l m m', loop (fun e m => gen_te f e n m) l m = Ok m' ->
    (fix all l := match l with [] => True | e :: r => fillable_te e /\ all r end) l ->
    NoDup ((fix all l := match l with [] => [] | e :: r => predicates e ++ all r end) l) -> untouched m ->
    (forall p v, In (direct p) ((fix all l := match l with [] => [] | e :: r => predicates e ++ all r end) l) -> ~ In (n, p, v) (m_graph m)) ->
    (forall k, m_counter m < k -> n <> bnode k) ->
    framed n m m' /\
    exists arcs, NoDup arcs /\
      (forall k v, In (k, v) arcs -> In k ((fix all l := match l with [] => [] | e :: r => predicates e ++ all r end) l) /\ exists p, k = direct p) /\
      (forall p v, In (n, p, v) (m_graph m') <-> In (n, p, v) (m_graph m) \/ In (direct p, v) arcs) /\
      exists ps, forall G T, same_new (m_counter m) (m_counter m') (m_graph m') G -> contains T ps ->
        (fix all l arcs := match l with
                           | [] => arcs = []
                           | e :: r => exists a b, Permutation arcs (a ++ b) /\ tmatch eval ext G T e a /\ all r b
                           end) l arcs /\ supported G T ps.
  Proof.
    intro IH. induction l as [|e r IHl]; intros m m' E FI N U NA NB.
    - cbn in E. injection E as <-. split; [exact (framed_refl n m U)|]. exists []. split; [constructor|]. split; [intros k v []|].
      split; [intros p v; split; [auto|intros [H|[]]; exact H]|]. exists []. intros G T _ _. split; [reflexivity|intros x j []].
    - cbn in E. destruct (gen_te f e n m) as [m1| |] eqn:E1; cbn in E; try discriminate. destruct FI as [F1 F2].
      destruct (NoDup_app_inv _ _ N) as (N1 & N2 & D).
      destruct (IH e n m m1 E1 F1 N1 U) as (FR1 & arcs1 & NA1 & P1 & G1 & ps1 & R1).
      { intros p v I. apply NA. apply in_app_iff. auto. }
      { exact NB. }
      destruct (IHl m1 m' E F2 N2) as (FR2 & arcs2 & NA2 & P2 & G2 & ps2 & R2).
      { apply FR1. }
      { intros p v I J. apply G1 in J. destruct J as [J|J]; [revert J; apply NA; apply in_app_iff; auto|].
        destruct (P1 _ _ J) as [J1 _]. exact (D _ J1 I). }
      { intros k K. apply NB. destruct FR1 as [L1 _]. lia. }
      split; [exact (framed_trans n m m1 m' FR1 FR2)|]. exists (arcs1 ++ arcs2).
      split; [|split; [|split]].
      + apply NoDup_app_disjoint; [exact NA1|exact NA2|]. intros [k v] I J. exact (D k (proj1 (P1 _ _ I)) (proj1 (P2 _ _ J))).
      + intros k v I. apply in_app_iff in I. destruct I as [I|I]; [destruct (P1 _ _ I) as [X Y]|destruct (P2 _ _ I) as [X Y]]; (split; [apply in_app_iff; auto|exact Y]).
      + intros p v. rewrite G2, G1, in_app_iff. tauto.
      + exists (ps1 ++ ps2). intros G T SN CT. destruct (same_new_split n m m1 m' G FR1 FR2 NB SN) as [SN1 SN2].
        destruct (R1 G T SN1) as [M1 S1]; [intros x j I; apply CT, in_app_iff; auto|].
        destruct (R2 G T SN2) as [M2 S2]; [intros x j I; apply CT, in_app_iff; auto|].
        split; [exists arcs1, arcs2; split; [reflexivity|split; assumption]|].
        intros x j I. apply in_app_iff in I. destruct I as [I|I]; [exact (S1 x j I)|exact (S2 x j I)].
  Qed.

  Lemma one_right f n : te_right f -> forall l m m', loop (fun e m => gen_te f e n m) l m = Ok m' ->
    (fix one l := match l with
                  | [] => False
                  | e :: r =>
                      fillable_te e /\ (fix all l := match l with [] => True | e :: r => silent e /\ all r end) r \/
                      silent e /\ one r
                  end) l ->
    NoDup ((fix all l := match l with [] => [] | e :: r => predicates e ++ all r end) l) -> untouched m ->
    (forall p v, In (direct p) ((fix all l := match l with [] => [] | e :: r => predicates e ++ all r end) l) -> ~ In (n, p, v) (m_graph m)) ->
    (forall k, m_counter m < k -> n <> bnode k) ->
    framed n m m' /\
    exists arcs, NoDup arcs /\
      (forall k v, In (k, v) arcs -> In k ((fix all l := match l with [] => [] | e :: r => predicates e ++ all r end) l) /\ exists p, k = direct p) /\
      (forall p v, In (n, p, v) (m_graph m') <-> In (n, p, v) (m_graph m) \/ In (direct p, v) arcs) /\
      exists ps, forall G T, same_new (m_counter m) (m_counter m') (m_graph m') G -> contains T ps ->
        (fix any l := match l with [] => False | e :: r => tmatch eval ext G T e arcs \/ any r end) l /\ supported G T ps.
  Proof.
    intro IH. induction l as [|e r IHl]; intros m m' E FI N U NA NB; [destruct FI|].
    cbn in E. destruct (gen_te f e n m) as [m1| |] eqn:E1; cbn in E; try discriminate.
    destruct (NoDup_app_inv _ _ N) as (N1 & N2 & D). destruct FI as [[F1 S]|[S FI]].
    - rewrite (loop_silent bnode key values sch f n r m1 m' E S) in *.
      destruct (IH e n m m1 E1 F1 N1 U) as (FR1 & arcs1 & NA1 & P1 & G1 & ps1 & R1).
      { intros p v I. apply NA. apply in_app_iff. auto. }
      { exact NB. }
      split; [exact FR1|]. exists arcs1. split; [exact NA1|]. split; [|split; [exact G1|]].
      + intros k v I. destruct (P1 _ _ I) as [X Y]. split; [apply in_app_iff; auto|exact Y].
      + exists ps1. intros G T SN CT. destruct (R1 G T SN CT) as [M1 S1]. split; [left; exact M1|exact S1].
    - rewrite (gen_silent bnode key values sch f e n m m1 E1 S) in *.
      destruct (IHl m m' E FI N2 U) as (FR1 & arcs1 & NA1 & P1 & G1 & ps1 & R1).
      { intros p v I. apply NA. apply in_app_iff. auto. }
      { exact NB. }
      split; [exact FR1|]. exists arcs1. split; [exact NA1|]. split; [|split; [exact G1|]].
      + intros k v I. destruct (P1 _ _ I) as [X Y]. split; [apply in_app_iff; auto|exact Y].
      + exists ps1. intros G T SN CT. destruct (R1 G T SN CT) as [M1 S1]. split; [right; exact M1|exact S1].
  Qed.

  (** one pass through a group *)
  Lemma one_pass (P : list arc -> Prop) mn mx arcs : once_allowed mn mx -> P arcs -> group P mn mx arcs.
  Proof.
    intros [A B] H. exists 1. split; [exact A|]. split; [exact B|]. exists arcs, []. split; [rewrite app_nil_r; reflexivity|]. split; [exact H|reflexivity].
  Qed.

  (** a new node as value *)
  Lemma new_right f n m m' p e0 : se_right f ->
    gen_se f e0 (bnode (S (m_counter m))) (add_triple n p (bnode (S (m_counter m))) (mkMat (S (m_counter m)) (m_graph m))) = Ok m' ->
    fillable e0 -> untouched m -> (forall v, ~ In (n, p, v) (m_graph m)) -> (forall k, m_counter m < k -> n <> bnode k) ->
    let b := bnode (S (m_counter m)) in
    framed n m m' /\
    (forall q v, In (n, q, v) (m_graph m') <-> In (n, q, v) (m_graph m) \/ In (direct q, v) [(direct p, b)]) /\
    exists ps, forall G T, same_new (m_counter m) (m_counter m') (m_graph m') G -> contains T ps ->
      sat eval ext G T e0 b /\ supported G T ps.
  Proof.
    intros IH E F U NA NB b. set (m1 := add_triple n p b (mkMat (S (m_counter m)) (m_graph m))) in *.
    assert (C1 : m_counter m1 = S (m_counter m)) by reflexivity.
    assert (I1 : forall s q v, In (s, q, v) (m_graph m1) <-> (s, q, v) = (n, p, b) \/ In (s, q, v) (m_graph m)).
    { intros s q v. unfold m1. rewrite in_add_triple. reflexivity. }
    assert (NBb : n <> b) by (apply NB; lia).
    assert (U1 : untouched m1).
    { intros k q v K I. rewrite C1 in K. apply I1 in I. destruct I as [I|I]; [injection I as I _ _; apply (NB k ltac:(lia)); congruence|].
      exact (U k q v ltac:(lia) I). }
    destruct (IH e0 b m1 m' E F U1) as ((L & U' & FR) & ps & R).
    { intros q v I. apply I1 in I. destruct I as [I|I]; [injection I as I _ _; congruence|]. exact (U (S (m_counter m)) q v ltac:(lia) I). }
    { intros k K X. apply fresh_bnodes in X. rewrite C1 in K. lia. }
    rewrite C1 in *. split; [split; [lia|split; [exact U'|]]|split].
    - intros s q v SN SB. rewrite FR.
      + rewrite I1. split; [intros [X|X]; [injection X as X _ _; congruence|exact X]|auto].
      + apply SB. lia.
      + intros k K. apply SB. lia.
    - intros q v. rewrite FR.
      + rewrite I1. cbn. split.
        * intros [X|X]; [right; left; congruence|auto].
        * intros [X|[X|[]]]; [auto|]. left. injection X as X ->. apply direct_inj in X. congruence.
      + exact NBb.
      + intros k K. apply NB. lia.
    - exists ps. intros G T SN CT. apply R; [apply SN; lia|intros k K; apply SN; lia|exact CT].
  Qed.

  Lemma declared_label l e : find_label sch l = Ok e -> declared [] sch l e.
  Proof.
    intro E. destruct (find_label_declared sch l e E) as (d & I & <- & <-). left. exists sch, d. cbn. auto.
  Qed.
  Lemma plain l e : declared [] sch l e -> no_inclusion e.
  Proof. intro D. apply (FS l e D). Qed.

  Lemma all_right f : se_right f /\ te_right f.
  Proof.
    induction f as [|f [IHs IHt]]; [split; intros e n m m' E; discriminate|]. split.
    - intros e n m m' E F U NA NB. destruct e as [l|l|e|ps|closed extra [te|] extends| |r]; cbn in E;
        try (injection E as <-; split; [exact (framed_refl n m U)|]; exists []; intros G T _ _ _; split; [apply F|intros x j []]; fail).
      + destruct F as [N F]. destruct (IHt te n m m' E F N U) as (FR & arcs & NAR & P & GA & ps & R).
        { intros p v _. apply NA. }
        { exact NB. }
        split; [exact FR|]. exists ps. intros G T SO SN CT. destruct (R G T SN CT) as [M S]. split; [|exact S].
        assert (A : forall k v, In (k, v) arcs <-> exists p, k = direct p /\ In (n, p, v) G).
        { intros k v. split.
          - intro I. destruct (P k v I) as (_ & p & ->). exists p. split; [reflexivity|]. apply SO. apply GA. auto.
          - intros (p & -> & I). apply SO in I. apply GA in I. destruct I as [I|I]; [destruct (NA p v I)|exact I]. }
        exists arcs, (incoming G n). split; [exact (neighbourhood_of G n arcs NAR A)|]. split; [exact M|].
        intros k v I DK. apply incoming_in in I. destruct I as (p & -> & _). rewrite is_direct_inverse in DK. discriminate.
      + injection E as <-. split; [exact (framed_refl n m U)|]. exists []. intros G T SO _ _. split; [|intros x j []].
        assert (A : forall k v, In (k, v) [] <-> exists p, k = direct p /\ In (n, p, v) G).
        { intros k v. split; [intros []|]. intros (p & _ & I). apply SO in I. destruct (NA p v I). }
        exists [], (incoming G n). split; [exact (neighbourhood_of G n [] (NoDup_nil _) A)|]. split; [reflexivity|].
        intros k v I DK. apply incoming_in in I. destruct I as (p & -> & _). rewrite is_direct_inverse in DK. discriminate.
      + destruct (find_label sch r) as [e'| |] eqn:FL; cbn in E; try discriminate. pose proof (declared_label r e' FL) as D.
        destruct (IHs e' n m m' E (proj2 (FS r e' D)) U NA NB) as (FR & ps & R). split; [exact FR|].
        exists ((n, r) :: ps). intros G T SO SN CT. destruct (R G T SO SN) as [SA SU]; [intros x j I; apply CT; right; exact I|]. split.
        * cbn. apply CT. left. reflexivity.
        * intros x j [X|I]; [|exact (SU x j I)]. injection X as <- <-. exists e'. split; [|exact SA].
          apply (defines_declared sch r e' plain). exact D.
    - intros e n m m' E F N U NA NB. destruct e as [id l mn mx acts|id l mn mx acts|id inv p value mn mx acts|r]; cbn in E.
      + destruct F as [B F]. cbn in N. destruct (each_right f n IHt l m m' E F N U NA NB) as (FR & arcs & NAR & P & GA & ps & R).
        split; [exact FR|]. exists arcs. split; [exact NAR|]. split; [exact P|]. split; [exact GA|]. exists ps. intros G T SN CT.
        destruct (R G T SN CT) as [M S]. split; [exact (one_pass _ mn mx arcs B M)|exact S].
      + destruct F as [B F]. cbn in N. destruct (one_right f n IHt l m m' E F N U NA NB) as (FR & arcs & NAR & P & GA & ps & R).
        split; [exact FR|]. exists arcs. split; [exact NAR|]. split; [exact P|]. split; [exact GA|]. exists ps. intros G T SN CT.
        destruct (R G T SN CT) as [M S]. split; [|exact S]. exact (one_pass _ mn mx arcs B M).
      + destruct F as (NI & LF & NL). pose proof (predicate_direct p inv NI) as PD.
        assert (LEAF : leaf value -> Ok (apply_map key values acts n p m) = Ok m' -> framed n m m' /\
          exists arcs, NoDup arcs /\ (forall k v, In (k, v) arcs -> In k [predicate_of p inv] /\ exists p, k = direct p) /\
            (forall q v, In (n, q, v) (m_graph m') <-> In (n, q, v) (m_graph m) \/ In (direct q, v) arcs) /\
            exists ps, forall G T, same_new (m_counter m) (m_counter m') (m_graph m') G -> contains T ps ->
              tmatch eval ext G T (ATc id inv p value mn mx acts) arcs /\ supported G T ps).
        { clear E. intros IL E. injection E as <-. destruct (LF IL) as ((vs & NV & OV & AL & AM) & SV). split.
          - split; [rewrite apply_map_counter; lia|]. split.
            + intros k q v K I. rewrite apply_map_counter in K. apply apply_map_in in I. destruct I as [I|(w & I & _)]; [exact (U k q v K I)|].
              injection I as I _ _. exact (NB k K (eq_sym I)).
            + intros s q v SN _. rewrite apply_map_in. split; [intros [I|(w & I & _)]; [exact I|congruence]|auto].
          - exists (map (fun v => (direct p, v)) vs). split; [|split; [|split]].
            + clear -NV. induction NV as [|v vs I NV IH]; cbn; constructor; [|exact IH]. rewrite in_map_iff. intros (w & E & J). injection E as ->. contradiction.
            + intros k v I. apply in_map_iff in I. destruct I as (w & E & _). injection E as <- _. split; [left; exact PD|eauto].
            + intros q v. rewrite apply_map_in. split.
              * intros [I|(w & I & O)]; [auto|]. injection I as -> ->. right. apply in_map_iff. exists w. split; [reflexivity|apply OV, O].
              * intros [I|I]; [auto|]. apply in_map_iff in I. destruct I as (w & I & O). injection I as I ->. apply direct_inj in I. subst q.
                right. exists v. split; [reflexivity|apply OV, O].
            + exists []. intros G T _ _. split; [|intros x j []]. cbn. rewrite map_length. split; [exact AL|]. split; [exact AM|].
              intros k v I. apply in_map_iff in I. destruct I as (w & I & O). injection I as <- ->. apply OV in O. destruct (SV v O) as [S1 S2].
              split; [symmetry; exact PD|]. split; [|exact S2]. specialize (S1 G T). exact S1. }
        assert (NEW : forall e0 v, value = Some v -> once_allowed mn mx -> (forall a w, In a acts -> eval a w = true) -> fillable e0 ->
          gen_se f e0 (bnode (S (m_counter m))) (add_triple n p (bnode (S (m_counter m))) (mkMat (S (m_counter m)) (m_graph m))) = Ok m' ->
          forall ps0, (forall G T, contains T ps0 -> sat eval ext G T e0 (bnode (S (m_counter m))) -> sat eval ext G T v (bnode (S (m_counter m))) /\ supported G T ps0) ->
          framed n m m' /\
          exists arcs, NoDup arcs /\ (forall k v, In (k, v) arcs -> In k [predicate_of p inv] /\ exists p, k = direct p) /\
            (forall q v, In (n, q, v) (m_graph m') <-> In (n, q, v) (m_graph m) \/ In (direct q, v) arcs) /\
            exists ps, forall G T, same_new (m_counter m) (m_counter m') (m_graph m') G -> contains T ps ->
              tmatch eval ext G T (ATc id inv p value mn mx acts) arcs /\ supported G T ps).
        { clear E. intros e0 v -> [B1 B2] AE F0 E ps0 K.
          assert (NAp : forall v, ~ In (n, p, v) (m_graph m)) by (intro w; apply NA; left; exact PD).
          destruct (new_right f n m m' p e0 IHs E F0 U NAp NB) as (FR & GA & ps & R). split; [exact FR|].
          exists [(direct p, bnode (S (m_counter m)))]. split; [constructor; [intros []|constructor]|]. split; [|split; [exact GA|]].
          - intros k w [I|[]]. injection I as <- _. split; [left; exact PD|eauto].
          - exists (ps0 ++ ps). intros G T SN CT.
            assert (C0 : contains T ps0) by (intros x j I; apply CT, in_app_iff; auto).
            destruct (R G T SN) as [SA SU]; [intros x j I; apply CT, in_app_iff; auto|]. destruct (K G T C0 SA) as [SV S0]. split.
            + cbn [tmatch length]. split; [exact B1|]. split; [exact B2|]. intros k w [I|[]]. injection I as <- <-. split; [symmetry; exact PD|]. split; [exact SV|].
              intros a I. apply AE, I.
            + intros x j I. apply in_app_iff in I. destruct I as [I|I]; [exact (S0 x j I)|exact (SU x j I)]. }
        destruct value as [[l|l|e|qs|closed extra te extends| |r]|]; try (exact (LEAF Logic.I E)).
        * destruct (NL (fun X => X)) as (F0 & B & AE). apply (NEW (AShape closed extra te extends) _ eq_refl B AE F0 E []). intros G T _ S. split; [exact S|intros x j []].
        * destruct (NL (fun X => X)) as (_ & B & AE). destruct (find_label sch r) as [e'| |] eqn:FL; cbn in E; try discriminate.
          pose proof (declared_label r e' FL) as D.
          apply (NEW e' _ eq_refl B AE (proj2 (FS r e' D)) E [(bnode (S (m_counter m)), r)]). intros G T C S. split; [apply C; left; reflexivity|].
          intros x j [I|[]]. injection I as <- <-. exists e'. split; [|exact S]. apply (defines_declared sch r e' plain). exact D.
      + destruct F.
  Qed.

  Variable can_be_subject : nat -> bool.
  Lemma materialize_right fuel initial n g l : materialize bnode can_be_subject key values sch fuel initial = Ok (n, g) ->
    (forall k, initial <> Some (bnode k)) -> start_label sch l -> has_shape eval ext g [] sch n l.
  Proof.
    intros E NI SL. unfold materialize in E.
    assert (X : exists m e m', m_graph m = [] /\ (forall k, m_counter m < k -> n <> bnode k) /\ find_start sch = Ok e /\ gen_se fuel e n m = Ok m' /\ g = m_graph m').
    { destruct initial as [n0|]; cbn in E.
      - destruct (can_be_subject n0); cbn in E; [|discriminate]. destruct (find_start sch) as [e| |] eqn:FS0; cbn in E; try discriminate.
        destruct (gen_se fuel e n0 (mkMat 0 [])) as [m'| |] eqn:G; cbn in E; try discriminate. injection E as <- <-.
        exists (mkMat 0 []), e, m'. split; [reflexivity|]. split; [|auto]. intros k _ X. apply (NI k). congruence.
      - destruct (find_start sch) as [e| |] eqn:FS0; cbn in E; try discriminate.
        destruct (gen_se fuel e (bnode 1) (mkMat 1 [])) as [m'| |] eqn:G; cbn in E; try discriminate. injection E as <- <-.
        exists (mkMat 1 []), e, m'. split; [reflexivity|]. split; [|auto]. intros k K X. apply fresh_bnodes in X. cbn in K. lia. }
    destruct X as (m & e & m' & GM & NB & FSt & G & ->). clear E.
    assert (D : declared [] sch l e).
    { unfold find_start in FSt. unfold start_label in SL. destruct (a_start sch) as [e0|] eqn:AS; [right; split; [exact SL|congruence]|].
      destruct (a_shapes sch) as [|d ds] eqn:AA; [discriminate|]. left. exists sch, d. split; [left; reflexivity|]. rewrite AA. split; [left; reflexivity|]. split; [auto|congruence]. }
    destruct (proj1 (all_right fuel) e n m m' G (proj2 (FS l e D))) as (_ & ps & R).
    { intros k p v _. rewrite GM. intros []. }
    { intros p v. rewrite GM. intros []. }
    { exact NB. }
    set (T := fun x j => if in_dec pair_dec (x, j) ((n, l) :: ps) then true else false).
    assert (TT : forall x j, T x j = true <-> In (x, j) ((n, l) :: ps)).
    { intros x j. unfold T. destruct (in_dec pair_dec (x, j) ((n, l) :: ps)); split; auto; discriminate. }
    destruct (R (m_graph m') T) as [SA SU].
    { intros p v. reflexivity. }
    { intros k _ p v. reflexivity. }
    { intros x j I. apply TT. right. exact I. }
    exists T. split; [apply TT; left; reflexivity|]. intros x j H. apply TT in H. destruct H as [H|H]; [|exact (SU x j H)].
    injection H as <- <-. exists e. split; [|exact SA]. apply (defines_declared sch l e plain). exact D.
  Qed.
End Final.
