From Coq Require Import List String Bool Permutation Lia.
Import ListNotations.
From Verif Require Import SjModel CoModel SqSpec SqLemmas GenModel TopoModel TopoSpec GenGraph.
Open Scope string_scope.

Lemma mem_in x l : mem x l = true <-> In x l.
Proof. unfold mem. rewrite existsb_exists. split; [intros (y & I & E); apply String.eqb_eq in E; congruence|intro I; exists x; split; [exact I|apply String.eqb_refl]]. Qed.
Lemma mem_not x l : mem x l = false <-> ~ In x l.
Proof. rewrite <- mem_in. destruct (mem x l); split; congruence. Qed.
Lemma remove_head x l : ~ In x l -> remove x (x :: l) = l.
Proof.
  intro N. unfold remove. cbn. rewrite String.eqb_refl. cbn. induction l as [|y l IH]; cbn; [reflexivity|]. cbn in N. destruct (String.eqb_spec x y) as [->|]; [tauto|]. cbn. rewrite IH by tauto. reflexivity.
Qed.

Lemma NoDup_app_snoc (l : list string) x : NoDup l -> ~ In x l -> NoDup (l ++ [x]).
Proof. intros N I. apply (Permutation_NoDup (l := x :: l)); [apply Permutation_cons_append|]. constructor; assumption. Qed.

Section Sorting.
Variable g : graph.
Hypothesis keys : NoDup (List.map fst g).
Notation U := (List.map fst g ++ flat_map snd g)%list.

Lemma edge_lookup a l : lookup a g = Some l -> forall b, edge g a b <-> In b l.
Proof.
  intros E b. assert (I : In (a, l) g).
  { clear keys. revert E. generalize g. intro g'. induction g' as [|[k v] g' IH]; cbn; [discriminate|]. destruct (String.eqb_spec a k) as [->|]; [intro E; injection E as ->; auto|auto]. }
  split; [|exists l; auto]. intros (l' & I' & J). rewrite (lookup_some a l' g keys I') in E. injection E as ->. exact J.
Qed.
Lemma no_edge a : lookup a g = None -> forall b, ~ edge g a b.
Proof. intros E b (l & I & _). rewrite (lookup_some a l g keys I) in E. discriminate. Qed.
Lemma edge_U a b : edge g a b -> In b U.
Proof. intros (l & I & J). apply in_or_app. right. apply in_flat_map. exists (a, l). auto. Qed.
Lemma path_snoc a b c : path g a b -> edge g b c -> path g a c.
Proof. induction 1 as [a b E|a b b' E P IH]; intro E'; [eapply P_more; [exact E|constructor; exact E']|eapply P_more; [exact E|auto]]. Qed.

(* What was pushed comes after all it depends on. *)
Definition ordered (out : list string) : Prop := forall l1 x l2, out = (l1 ++ x :: l2)%list -> forall y, edge g x y -> In y l1.
Record sane (s : state) : Prop := {
  s_same : forall x, In x (visited s) <-> In x (result s);
  s_nodup : NoDup (result s);
  s_ordered : ordered (result s);
  s_apart : forall x, In x (temp s) -> ~ In x (result s);
  s_temp : NoDup (temp s);
  s_inside : forall x, In x (temp s) -> In x U }.

Definition reach (a b : string) : Prop := a = b \/ path g a b.
Definition grows (from : list string) (s s' : state) : Prop :=
  temp s' = temp s /\ exists d, result s' = (result s ++ d)%list /\ (forall x, In x d -> ~ In x (temp s)) /\ (forall x, In x d -> exists n, In n from /\ reach n x) /\ forall n, In n from -> In n (result s').
Definition goes (from : list string) (s : state) (o : outcome) : Prop :=
  match o with
  | Done s' => sane s' /\ grows from s s'
  | Circular => cyclic g
  | OutOfFuel => False
  end.
Definition fine (f : string -> state -> outcome) (ok : string -> state -> Prop) : Prop := forall x s, sane s -> ok x s -> goes [x] s (f x s).

Lemma grows_app a b s s' s'' : grows a s s' -> grows b s' s'' -> grows (a ++ b) s s''.
Proof.
  intros (T1 & d1 & R1 & N1 & F1 & A1) (T2 & d2 & R2 & N2 & F2 & A2). split; [congruence|]. exists (d1 ++ d2)%list. split; [rewrite R2, R1, app_assoc; reflexivity|]. split; [|split].
  - intros x I. apply in_app_or in I. destruct I as [I|I]; [auto|]. rewrite <- T1. auto.
  - intros x I. apply in_app_or in I. destruct I as [I|I]; [destruct (F1 x I) as (n & J & K)|destruct (F2 x I) as (n & J & K)]; exists n; (split; [apply in_or_app; auto|exact K]).
  - intros n I. apply in_app_or in I. destruct I as [I|I]; [|auto]. rewrite R2. apply in_or_app. left. auto.
Qed.

Lemma all_goes f (ok : string -> state -> Prop) l : forall s, (forall x s', In x l -> temp s' = temp s -> ok x s') -> fine f ok -> sane s -> goes l s (all_of f l s).
Proof.
  induction l as [|x l IH]; intros s O F S; cbn.
  - split; [exact S|]. split; [reflexivity|]. exists []. rewrite app_nil_r. split; [reflexivity|]. repeat split; intros ? [].
  - pose proof (F x s S (O x s (or_introl eq_refl) eq_refl)) as G. destruct (f x s) as [s'| |]; cbn in G |- *; [|exact G|exact G]. destruct G as [S' Gr].
    assert (O' : forall y t, In y l -> temp t = temp s' -> ok y t) by (intros y t I E; apply O; [right; exact I|destruct Gr as [T _]; congruence]).
    specialize (IH s' O' F S'). destruct (all_of f l s') as [s''| |]; cbn in IH |- *; try exact IH. destruct IH as [S'' Gr'].
    split; [exact S''|]. change (x :: l)%list with ([x] ++ l)%list. eapply grows_app; eassumption.
Qed.

Lemma visit_goes fuel : fine (visit g fuel) (fun x s => In x U /\ (forall t, In t (temp s) -> path g t x) /\ List.length U < fuel + List.length (temp s)).
Proof.
  induction fuel as [|fuel IH]; intros x s S (Ux & Px & Len).
  - exfalso. pose proof (NoDup_incl_length (s_temp s S) (s_inside s S)). lia.
  - cbn [visit]. destruct (mem x (temp s)) eqn:Et; [apply mem_in in Et; exists x; auto|]. apply mem_not in Et.
    destruct (mem x (visited s)) eqn:Ev.
    { apply mem_in in Ev. apply (s_same s S) in Ev. split; [exact S|]. split; [reflexivity|]. exists []. rewrite app_nil_r. split; [reflexivity|]. split; [intros ? []|]. split; [intros ? []|]. intros n [<-|[]]. exact Ev. }
    apply mem_not in Ev. assert (Er : ~ In x (result s)) by (intro I; apply Ev, (s_same s S), I).
    set (s1 := {| visited := visited s; temp := x :: temp s; result := result s |}).
    assert (S1 : sane s1).
    { destruct S as [Sa Sb Sc Sd Se Sf]. constructor; cbn; auto.
      - intros y [<-|I]; auto.
      - constructor; assumption.
      - intros y [<-|I]; auto. }
    set (o := match lookup x g with Some deps => all_of (visit g fuel) deps s1 | None => Done s1 end).
    assert (G : goes (match lookup x g with Some deps => deps | None => [] end) s1 o).
    { subst o. destruct (lookup x g) as [deps|] eqn:El.
      - apply all_goes with (ok := fun x s => In x U /\ (forall t, In t (temp s) -> path g t x) /\ List.length U < fuel + List.length (temp s)); [|exact IH|exact S1].
        intros y t I E. pose proof (proj2 (edge_lookup _ _ El y) I) as Ed. rewrite E. cbn [temp s1]. split; [apply edge_U with x; exact Ed|]. split.
        + intros z [<-|Iz]; [constructor; exact Ed|]. eapply path_snoc; [apply Px, Iz|exact Ed].
        + cbn [List.length]. lia.
      - split; [exact S1|]. split; [reflexivity|]. exists []. rewrite app_nil_r. split; [reflexivity|]. repeat split; intros ? []. }
    destruct o as [s2| |]; cbn in G |- *; [|exact G|exact G]. destruct G as [S2 (T2 & d & R2 & Nd & Fd & Ad)]. cbn [temp result s1] in T2, R2, Nd.
    rewrite T2, remove_head by exact Et.
    assert (Ex : ~ In x (result s2)). { rewrite R2. intro I. apply in_app_or in I. destruct I as [I|I]; [exact (Er I)|]. apply (Nd x I). left. reflexivity. }
    destruct S2 as [Sa Sb Sc Sd Se Sf]. split; [constructor; cbn|].
    + intro y. rewrite in_app_iff, <- Sa. cbn. tauto.
    + apply NoDup_app_snoc; assumption.
    + intros l1 y l2 E z Ed. destruct l2 as [|w l2'] using rev_ind.
      * apply app_inj_tail in E. destruct E as [<- <-]. destruct (lookup x g) as [deps|] eqn:El; [|exfalso; exact (no_edge _ El _ Ed)]. apply Ad. apply (edge_lookup _ _ El). exact Ed.
      * rewrite app_comm_cons, app_assoc in E. apply app_inj_tail in E. destruct E as [E _]. exact (Sc _ _ _ E z Ed).
    + intros y I J. apply in_app_or in J. destruct J as [J|[<-|[]]]; [|exact (Et I)]. apply (Sd y); [rewrite T2; right; exact I|exact J].
    + apply (s_temp s S).
    + apply (s_inside s S).
    + split; [reflexivity|]. exists (d ++ [x])%list. cbn. split; [rewrite R2, app_assoc; reflexivity|]. split; [|split].
      * intros y I J. apply in_app_or in I. destruct I as [I|[<-|[]]]; [|exact (Et J)]. apply (Nd y I). right. exact J.
      * intros y I. exists x. split; [left; reflexivity|]. apply in_app_or in I. destruct I as [I|[<-|[]]]; [|left; reflexivity]. destruct (Fd y I) as (n & In_n & R). right.
        assert (Ed : edge g x n). { destruct (lookup x g) as [deps|] eqn:El; [|destruct In_n]. apply (edge_lookup _ _ El), In_n. }
        destruct R as [<-|R]; [constructor; exact Ed|eapply P_more; eassumption].
      * intros n [<-|[]]. apply in_or_app. right. left. reflexivity.
Qed.

Variable ord : list string -> list string.
Hypothesis ord_perm : forall l, Permutation (ord l) l.

Lemma reach_node n x : In n (List.map fst g) -> reach n x -> a_node g x.
Proof.
  intros I [<-|P]; [left; exact I|]. right. clear I. induction P as [a b E|a b c E P IH]; [eauto|exact IH].
Qed.

Lemma sort_goes : match topological_sort ord g (enough g) with
  | Done s => NoDup (result s) /\ ordered (rev (result s)) /\ (forall x, In x (result s) -> a_node g x) /\ forall x, In x (List.map fst g) -> In x (result s)
  | Circular => cyclic g
  | OutOfFuel => False
  end.
Proof.
  unfold topological_sort. set (s0 := {| visited := []; temp := []; result := [] |}). set (f := fun x s => _).
  assert (S0 : sane s0). { constructor; cbn; try tauto; try constructor. intros l1 x l2 E. destruct l1; discriminate. }
  assert (G : goes (ord (List.map fst g)) s0 (all_of f (ord (List.map fst g)) s0)).
  { apply all_goes with (ok := fun x s => In x U /\ temp s = []); [| |exact S0].
    - intros x s I E. split; [|exact E]. apply in_or_app. left. rewrite <- ord_perm. exact I.
    - intros x s S [Ux T]. unfold f. destruct (mem x (visited s)) eqn:Ev.
      + apply mem_in in Ev. apply (s_same s S) in Ev. split; [exact S|]. split; [reflexivity|]. exists []. rewrite app_nil_r. split; [reflexivity|]. split; [intros ? []|]. split; [intros ? []|]. intros n [<-|[]]. exact Ev.
      + apply visit_goes; [exact S|]. split; [exact Ux|]. rewrite T. split; [intros t []|]. unfold enough. cbn. lia. }
  destruct (all_of f (ord (List.map fst g)) s0) as [s| |]; cbn in G |- *; [|exact G|exact G].
  destruct G as [S (_ & d & R & _ & Fd & Ad)]. cbn in R. split; [apply NoDup_rev, (s_nodup s S)|]. split; [rewrite rev_involutive; apply (s_ordered s S)|]. split.
  - intros x I. apply in_rev in I. rewrite R in I. destruct (Fd x I) as (n & J & K). apply (reach_node n); [rewrite <- ord_perm; exact J|exact K].
  - intros x I. rewrite <- in_rev. apply Ad. rewrite ord_perm. exact I.
Qed.

Lemma ordered_path out : ordered out -> forall a b, path g a b -> forall l1 l2, out = (l1 ++ a :: l2)%list -> In b l1.
Proof.
  intros O a b P. induction P as [a b E|a b c E P IH]; intros l1 l2 Eq; [exact (O _ _ _ Eq b E)|].
  pose proof (O _ _ _ Eq b E) as I. apply in_split in I. destruct I as (m1 & m2 & ->). rewrite <- app_assoc in Eq. cbn in Eq. apply in_or_app. left. exact (IH _ _ Eq).
Qed.
Lemma key_of_edge a b : edge g a b -> In a (List.map fst g).
Proof. intros (l & I & _). apply (in_map fst) in I. exact I. Qed.
Lemma ordered_acyclic out : ordered out -> NoDup out -> (forall x, In x (List.map fst g) -> In x out) -> ~ cyclic g.
Proof.
  intros O N K (a & P). assert (I : In a out). { apply K. inversion P as [x y E|x y z E _]; subst; eapply key_of_edge; exact E. }
  apply in_split in I. destruct I as (l1 & l2 & ->). pose proof (ordered_path _ O _ _ P l1 l2 eq_refl) as J. apply NoDup_remove_2 in N. apply N, in_or_app. left. exact J.
Qed.

Theorem sort_right : (sort ord g = None <-> cyclic g) /\ forall l, sort ord g = Some l -> dependents_first g l.
Proof.
  pose proof sort_goes as G. unfold sort. destruct (topological_sort ord g (enough g)) as [s| |]; [|split; [tauto|discriminate]|destruct G].
  destruct G as (N & O & B & K). split.
  - split; [discriminate|]. intro C. exfalso. apply (ordered_acyclic (rev (result s)) O); [apply NoDup_rev, N| |exact C]. intros x I. rewrite <- in_rev. apply K, I.
  - intros l E. injection E as <-. split; [exact N|].
    assert (Bf : forall a b, edge g a b -> before (result s) a b).
    { intros a b E. pose proof (K a (key_of_edge _ _ E)) as I. apply in_rev, in_split in I. destruct I as (l1 & l2 & Eq). pose proof (O _ _ _ Eq b E) as J. apply in_split in J. destruct J as (m1 & m2 & ->).
      apply (f_equal (@rev _)) in Eq. rewrite rev_involutive in Eq. exists (rev l2), (rev m2), (rev m1). rewrite Eq. repeat (rewrite rev_app_distr; cbn). rewrite <- !app_assoc. cbn. rewrite <- ?app_assoc. reflexivity. }
    split; [|exact Bf]. intro x. split; [apply B|]. intros [I|(a & E)]; [apply K, I|]. destruct (Bf a x E) as (u & v & w & ->). apply in_or_app. right. right. apply in_or_app. right. left. reflexivity.
Qed.
End Sorting.

Section Graphs.
Context {L : lib}.
Lemma in_put {A} k (v : A) m x : In x (List.map fst (put k v m)) -> x = k \/ In x (List.map fst m).
Proof. induction m as [|[k' v'] m IH]; cbn; [intuition|]. destruct (String.eqb k k'); cbn; intuition. Qed.
Lemma nodup_put {A} k (v : A) m : NoDup (List.map fst m) -> NoDup (List.map fst (put k v m)).
Proof.
  induction m as [|[k' v'] m IH]; cbn; intro N; [repeat constructor; auto|]. inversion N as [|? ? N1 N2]; subst. destruct (String.eqb_spec k k') as [->|Ne]; cbn; [exact N|]. constructor; [|apply IH, N2].
  intro I. destruct (in_put _ _ _ _ I) as [E|J]; [exact (Ne (eq_sym E))|exact (N1 J)].
Qed.
Lemma dependencies_keys ds : NoDup (List.map fst (dependencies ds)).
Proof.
  unfold dependencies. assert (X : forall m : graph, NoDup (List.map fst m) -> NoDup (List.map fst (fold_left (fun m d => put (i_id (legacy_info d)) (List.map dp_target (i_deps (legacy_info d))) m) ds m))).
  { induction ds as [|d ds IH]; intros m N; cbn; [exact N|]. apply IH, nodup_put, N. }
  apply X. constructor.
Qed.

Lemma te_deps te b : In b (List.map dp_target (legacy_deps (legacy_properties te))) <-> exists p r, In (p, Some (SRef r)) (constraints te) /\ show_label r = b.
Proof.
  induction te as [id l mn mx a x F|id l mn mx a x F|id neg inv p ve mn mx a x|l] using texpr_ind'.
  1, 2: cbn [legacy_properties constraints]; induction F as [|te l IH F IH']; cbn; [split; [intros []|intros (p & r & [] & _)]|];
    unfold legacy_deps in *; rewrite flat_map_app, map_app, in_app_iff, IH, IH'; split;
    [intros [(p & r & I & E)|(p & r & I & E)]; exists p, r; (split; [apply in_or_app; auto|exact E])|
     intros (p & r & I & E); apply in_app_or in I; destruct I as [I|I]; [left|right]; eauto].
  - cbn. destruct ve as [e|]; [destruct e as [| | | | | |r]|]; cbn; try (split; [intros []|intros (q & s & [H|[]] & E); discriminate H]).
    split; [intros [<-|[]]; eauto|]. intros (q & s & [H|[]] & E). injection H as _ ->. auto.
  - cbn. split; [intros []|intros (p & r & [] & _)].
Qed.
Lemma dependencies_edges ds : NoDup (List.map (fun d => show_label (d_id d)) ds) -> forall a b, edge (dependencies ds) a b <-> refers ds a b.
Proof.
  intros N a b. unfold dependencies. rewrite (put_all (fun d => i_id (legacy_info d)) (fun d => List.map dp_target (i_deps (legacy_info d))) ds []) by exact N. cbn [app]. unfold edge, refers. split.
  - intros (l & I & J). apply in_map_iff in I. destruct I as (d & E & I). injection E as <- <-. unfold legacy_info in J. cbn [i_deps] in J. cbn.
    destruct (d_expr d) as [| | | |closed extra te sa an ex| | ] eqn:Ex; try destruct J. destruct te as [te|]; [|destruct J]. apply te_deps in J. destruct J as (p & r & J & E).
    exists d, closed, extra, te, sa, an, ex, p, r. auto.
  - intros (d & closed & extra & te & sa & an & ex & p & r & I & <- & Ex & J & E). eexists. split; [apply in_map_iff; exists d; split; [reflexivity|exact I]|].
    unfold legacy_info. cbn [i_deps]. rewrite Ex. apply te_deps. eauto.
Qed.
End Graphs.
