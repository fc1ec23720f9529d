(** Existence of the typings of ProveSpec.v on finite sets of pairs. *)
From Coq Require Import List Arith Bool Permutation Lia.
Import ListNotations.
From Verif Require Import GraphModel GraphSpec GraphLemmas ProveModel ProveSpec ProveLemmas.

Section Exists.
  Variable dep : nat -> list nat.
  Variable is_abstract : nat -> bool.
  Variable desc : nat -> list nat.
  Variable check : nat -> (nat -> bool) -> bool.
  Variable negated : nat -> nat -> Prop.
  Variable str : nat -> nat.
  Variable all : list nat.
  Hypothesis H_closed : closed dep desc all.
  Hypothesis H_mono : monotone_but dep check negated.
  Hypothesis H_str : stratifies dep desc all negated str.
  Notation justified := (justified is_abstract desc check).

  Definition justifiedb (T : nat -> bool) (k : nat) : bool := negb (is_abstract k) && check k T || existsb T (desc k).
  Lemma justifiedb_spec T k : justifiedb T k = true <-> justified T k.
  Proof.
    unfold justifiedb, justified. rewrite orb_true_iff, andb_true_iff, negb_true_iff, existsb_exists. reflexivity.
  Qed.

  Definition count (T : nat -> bool) : nat := length (filter T all).

  Lemma count_remove T j : In j all -> T j = true -> count (fun i => T i && negb (Nat.eqb i j)) < count T.
  Proof.
    intros J Tj. apply (filter_length_lt _ _ all j).
    - intros x _ X. apply andb_true_iff in X. exact (proj1 X).
    - exact J.
    - rewrite Nat.eqb_refl. apply andb_false_r.
    - exact Tj.
  Qed.

  (** the greatest typing of one stratum above a given typing of those below *)
  Lemma level_exists n (V : nat -> bool) :
    exists T, (forall i, str i <> n -> T i = V i) /\
      (forall j, In j all -> str j = n -> T j = true -> justified T j) /\
      (forall S, (forall i, In i all -> str i < n -> S i = V i) ->
                 (forall j, In j all -> str j = n -> S j = true -> justified S j) ->
                 forall j, In j all -> str j = n -> S j = true -> T j = true).
  Proof.
    set (post S := (forall i, In i all -> str i < n -> S i = V i) /\ (forall j, In j all -> str j = n -> S j = true -> justified S j)).
    assert (G : forall c T, count T <= c -> (forall i, str i <> n -> T i = V i) ->
      (forall S, post S -> forall j, In j all -> str j = n -> S j = true -> T j = true) ->
      exists T', (forall i, str i <> n -> T' i = V i) /\ (forall j, In j all -> str j = n -> T' j = true -> justified T' j) /\
                 (forall S, post S -> forall j, In j all -> str j = n -> S j = true -> T' j = true)).
    { induction c as [|c IH]; intros T C Off Up;
        destruct (existsb (fun j => Nat.eqb (str j) n && T j && negb (justifiedb T j)) all) eqn:X.
      - apply existsb_exists in X. destruct X as (j & Ja & X). apply andb_true_iff in X. destruct X as [X _].
        apply andb_true_iff in X. destruct X as [_ X]. pose proof (count_remove T j Ja X). lia.
      - exists T. split; [exact Off|]. split; [|exact Up]. intros j Ja Q Tj. apply justifiedb_spec.
        destruct (justifiedb T j) eqn:Z; [reflexivity|]. assert (Y : existsb (fun j => Nat.eqb (str j) n && T j && negb (justifiedb T j)) all = true); [|congruence].
        apply existsb_exists. exists j. split; [exact Ja|]. rewrite Q, Nat.eqb_refl, Tj, Z. reflexivity.
      - apply existsb_exists in X. destruct X as (j & Ja & X). apply andb_true_iff in X. destruct X as [X NJ].
        apply andb_true_iff in X. destruct X as [Q Tj]. apply Nat.eqb_eq in Q. apply negb_true_iff in NJ.
        apply (IH (fun i => T i && negb (Nat.eqb i j))).
        + pose proof (count_remove T j Ja Tj). lia.
        + intros i N. destruct (Nat.eqb i j) eqn:Z; [apply Nat.eqb_eq in Z; congruence|]. rewrite andb_true_r. exact (Off i N).
        + intros S PS i Ia Qi Si. apply andb_true_iff. split; [exact (Up S PS i Ia Qi Si)|]. apply negb_true_iff.
          apply Nat.eqb_neq. intros ->. assert (Y : justifiedb T j = true); [|congruence]. apply justifiedb_spec.
          destruct PS as [P1 P2]. pose proof (P2 j Ja Q Si) as Js. revert Js.
          apply (justified_mono dep is_abstract desc check negated str all H_closed H_mono H_str j S T Ja).
          intros i Ii N. pose proof (proj1 H_str j i Ja N) as L. destruct (Nat.eq_dec (str i) n) as [E|E].
          * right. split; [congruence|]. intro Z. exact (Up S (conj P1 P2) i Ii E Z).
          * left. rewrite (Off i E). apply P1; [exact Ii|lia].
      - exists T. split; [exact Off|]. split; [|exact Up]. intros j Ja Q Tj. apply justifiedb_spec.
        destruct (justifiedb T j) eqn:Z; [reflexivity|]. assert (Y : existsb (fun j => Nat.eqb (str j) n && T j && negb (justifiedb T j)) all = true); [|congruence].
        apply existsb_exists. exists j. split; [exact Ja|]. rewrite Q, Nat.eqb_refl, Tj, Z. reflexivity. }
    destruct (G (count (fun i => if Nat.eqb (str i) n then true else V i)) (fun i => if Nat.eqb (str i) n then true else V i))
      as (T & Off & J & Up).
    - lia.
    - intros i N. apply Nat.eqb_neq in N. rewrite N. reflexivity.
    - intros S _ j _ -> _. rewrite Nat.eqb_refl. reflexivity.
    - exists T. split; [exact Off|]. split; [exact J|]. intros S P1 P2. exact (Up S (conj P1 P2)).
  Qed.

  Lemma levels_exist n : exists V, forall k, In k all -> str k < n ->
    (V k = true <->
     exists T, T k = true /\ (forall i, In i all -> str i < str k -> T i = V i) /\
               forall j, In j all -> str j = str k -> T j = true -> justified T j).
  Proof.
    induction n as [|n [V IH]]; [exists (fun _ => false); intros; lia|].
    destruct (level_exists n V) as (W & Off & J & Up). exists W. intros k K L.
    destruct (Nat.eq_dec (str k) n) as [Q|Q].
    - split.
      + intro Wk. exists W. split; [exact Wk|]. split; [reflexivity|]. intros j Ja E. apply J; congruence.
      + intros (T & Tk & B & C). apply (Up T); [|intros j Ja E; apply C; congruence|exact K|exact Q|exact Tk].
        intros i Ia Li. rewrite (B i Ia) by lia. apply Off. lia.
    - rewrite (Off k Q). rewrite (IH k K ltac:(lia)). split; intros (T & Tk & B & C); exists T; (split; [exact Tk|split; [|exact C]]);
        intros i Ia Li; rewrite (B i Ia Li); [symmetry|]; apply Off; lia.
  Qed.

  Lemma stratified_typing_exists : exists V, stratified_typing is_abstract desc check all str V.
  Proof.
    assert (B : exists n, forall k, In k all -> str k < n).
    { clear. induction all as [|k l [n IH]]; [exists 0; intros k []|]. exists (S (Nat.max (str k) n)).
      intros j [<-|Hj]; [lia|]. pose proof (IH j Hj). lia. }
    destruct B as [n B]. destruct (levels_exist n) as [V HV]. exists V. intros k K. exact (HV k K (B k K)).
  Qed.
End Exists.

(** without negation the only stratum is the greatest typing *)
Lemma one_stratum dep is_abstract desc check all V k :
  closed dep desc all -> local dep check -> stratified_typing is_abstract desc check all (fun _ => 0) V -> In k all ->
  (V k = true <-> conformant is_abstract desc check k).
Proof.
  intros CL LC HV K. rewrite (HV k K). split.
  - intros (T & Tk & _ & J). exists (fun i => T i && mem i all). split.
    + rewrite Tk. apply mem_In. exact K.
    + intros j Tj. apply andb_true_iff in Tj. destruct Tj as [Tj Ja]. apply mem_In in Ja.
      assert (E : forall i, needs dep desc j i -> T i = T i && mem i all).
      { intros i N. rewrite (proj2 (mem_In i all) (CL j i Ja N)). symmetry. apply andb_true_r. }
      destruct (J j Ja eq_refl Tj) as [[A C]|(d & D & Td)].
      * left. split; [exact A|]. rewrite <- C. symmetry. apply LC. intros i Hi. exact (E i (or_introl Hi)).
      * right. exists d. split; [exact D|]. rewrite <- (E d (or_intror D)). exact Td.
  - intros (T & Tk & J). exists T. split; [exact Tk|]. split; [intros i _ L; lia|]. intros j _ _ Tj. exact (J j Tj).
Qed.

(** a rank that strictly decreases along the edges that are not on a cycle *)
Lemma rank_exists (all : list nat) (succ : nat -> list nat) :
  (forall k j, In k all -> In j (succ k) -> In j all) ->
  exists r : nat -> nat, (forall k j, In k all -> In j (succ k) -> r j <= r k) /\
    (forall k j, In k all -> In j (succ k) -> ~ reach (fun x y => In y (succ x)) j k -> r j < r k).
Proof.
  intro CL.
  assert (F : forall l, (forall x, In x l -> In x all) -> exists f, forall k, In k l -> exists r, dfs f succ [k] [] = Some r).
  { induction l as [|k l IH]; intro L; [exists 0; intros k []|].
    destruct IH as [f Hf]; [intros x Hx; apply L; right; exact Hx|].
    destruct (dfs_total all succ CL [] [k]) as (f' & r & Hr); [intros x [<-|[]]; apply L; left; reflexivity|].
    exists (Nat.max f f'). intros j [<-|Hj].
    - exists r. apply (dfs_more f'); [lia|exact Hr].
    - destruct (Hf j Hj) as [r' Hr']. exists r'. apply (dfs_more f); [lia|exact Hr']. }
  destruct (F all) as [f Hf]; [auto|].
  set (reached := fun k => match dfs f succ [k] [] with Some l => l | None => [] end).
  assert (R : forall k x, In k all -> In x (reached k) <-> reach (fun x y => In y (succ x)) k x).
  { intros k x K. unfold reached. destruct (Hf k K) as [l Hl]. rewrite Hl. rewrite (dfs_spec _ _ _ _ _ x Hl). split.
    - intros (s & [<-|[]] & A). exact (avoid_reach _ _ _ _ A).
    - intro A. exists k. split; [left; reflexivity|]. exact (reach_avoid _ _ _ A). }
  exists (fun k => length (filter (fun x => mem x (reached k)) all)). split.
  - intros k j K J. apply filter_length_le. intros x _ X. apply mem_In in X. apply mem_In.
    apply (R k x K). apply (R j x (CL k j K J)) in X. exact (reach_step _ k j x J X).
  - intros k j K J N. apply (filter_length_lt _ _ all k).
    + intros x _ X. apply mem_In in X. apply mem_In. apply (R k x K). apply (R j x (CL k j K J)) in X. exact (reach_step _ k j x J X).
    + exact K.
    + apply mem_not_In. intro X. apply N. apply (R j k (CL k j K J)). exact X.
    + apply mem_In. apply (R k k K). constructor.
Qed.
