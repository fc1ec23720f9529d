(** Lemmas about importing. *)
From Coq Require Import List Arith Bool ZArith Lia Permutation.
Import ListNotations.
From Verif Require Import RbeModel PendingModel TableModel GraphModel EngineModel EngineSpec CompModel CompSpec CompLemmas ImpModel ImpSpec.

Lemma mem_spec k l : mem k l = true <-> In k l.
Proof. unfold mem. rewrite existsb_exists. split; [intros (x & I & E); apply Nat.eqb_eq in E as ->; exact I|intro I; exists k; split; [exact I|apply Nat.eqb_refl]]. Qed.

Lemma fold_err {A B} (h : A -> B -> res A) l : fold_left (fun st i => bind st (fun x => h x i)) l Err = Err.
Proof. induction l; [reflexivity|assumption]. Qed.
Lemma fold_fuel {A B} (h : A -> B -> res A) l : fold_left (fun st i => bind st (fun x => h x i)) l OutOfFuel = OutOfFuel.
Proof. induction l; [reflexivity|assumption]. Qed.

Section Collect.
  Variable registry : list (list decl).
  Variable docs : nat -> option doc.
  Notation state := (list nat * list (nat * aschema))%type.
  Let collect := collect_imports registry docs.

  Definition import_one (f : nat) (st : state) (i : nat) : res state :=
    let (visited, asts) := st in
    if mem i visited then Ok (visited, asts)
    else match docs i with
         | None => Err
         | Some d' => do (visited, asts) <- collect f d' (visited ++ [i], asts);
                      Ok (visited, asts ++ [(i, rewrite_ast registry (doc_schema d'))])
         end.
  Lemma collect_unfold f d st : collect (S f) d st =
    match doc_imports d with None => Err | Some l => fold_left (fun st i => bind st (fun x => import_one f x i)) l (Ok st) end.
  Proof. reflexivity. Qed.

  Definition collected (asts : list (nat * aschema)) : Prop :=
    forall i a, In (i, a) asts -> exists d', docs i = Some d' /\ a = rewrite_ast registry (doc_schema d').
  (** from one state to another, having dealt with the documents in [l] *)
  Definition visits (l : list nat) (st st' : state) : Prop :=
    exists new asts, fst st' = fst st ++ new /\ snd st' = snd st ++ asts /\ Permutation (map fst asts) new /\
      (NoDup (fst st) -> NoDup (fst st')) /\ collected asts /\
      (forall i, In i l -> In i (fst st')) /\
      (forall i, In i new -> exists d', docs i = Some d' /\ doc_imports d' <> None /\ forall j, names d' j -> In j (fst st')) /\
      (forall i, In i new -> In i l \/ exists k d', In k l /\ docs k = Some d' /\ imports docs d' i).

  Lemma visits_nil st : visits [] st st.
  Proof. exists [], []. rewrite !app_nil_r. refine (conj eq_refl (conj eq_refl (conj (Permutation_refl _) (conj (fun H => H) (conj _ (conj _ (conj _ _))))))); solve [intros ? []|intros ? ? []]. Qed.
  Lemma visits_app l1 l2 st1 st2 st3 : visits l1 st1 st2 -> visits l2 st2 st3 -> visits (l1 ++ l2) st1 st3.
  Proof.
    intros (n1 & a1 & E1 & F1 & P1 & N1 & C1 & L1 & K1 & R1) (n2 & a2 & E2 & F2 & P2 & N2 & C2 & L2 & K2 & R2).
    assert (SUB : forall i, In i (fst st2) -> In i (fst st3)) by (intros i I; rewrite E2; apply in_or_app; auto).
    exists (n1 ++ n2), (a1 ++ a2). refine (conj _ (conj _ (conj _ (conj _ (conj _ (conj _ (conj _ _))))))).
    - rewrite E2, E1, app_assoc. reflexivity.
    - rewrite F2, F1, app_assoc. reflexivity.
    - rewrite map_app. apply Permutation_app; assumption.
    - auto.
    - intros i a I. apply in_app_or in I. destruct I as [I|I]; [exact (C1 i a I)|exact (C2 i a I)].
    - intros i I. apply in_app_or in I. destruct I as [I|I]; [apply SUB, L1, I|apply L2, I].
    - intros i I. apply in_app_or in I. destruct I as [I|I]; [|apply K2, I]. destruct (K1 i I) as (d & A & B & C). exists d. repeat split; auto.
    - intros i I. apply in_app_or in I. destruct I as [I|I].
      + destruct (R1 i I) as [X|(k & d & X & Y)]; [left; apply in_or_app; auto|right; exists k, d; split; [apply in_or_app; auto|exact Y]].
      + destruct (R2 i I) as [X|(k & d & X & Y)]; [left; apply in_or_app; auto|right; exists k, d; split; [apply in_or_app; auto|exact Y]].
  Qed.
  Lemma visits_fold f l : (forall i st st', import_one f st i = Ok st' -> visits [i] st st') ->
    forall st st', fold_left (fun st i => bind st (fun x => import_one f x i)) l (Ok st) = Ok st' -> visits l st st'.
  Proof.
    intro H. induction l as [|i l IH]; intros st st' E; [injection E as <-; apply visits_nil|]. cbn [fold_left bind] in E.
    destruct (import_one f st i) as [st1| |] eqn:E1; [|rewrite fold_err in E; discriminate|rewrite fold_fuel in E; discriminate].
    exact (visits_app [i] l st st1 st' (H i st st1 E1) (IH st1 st' E)).
  Qed.
  Lemma imports_step i d' j : docs i = Some d' -> names d' j -> forall d k, imports docs d i -> k = j -> imports docs d k.
  Proof. intros A B d k I ->. exact (imports_further docs d i d' j I A B). Qed.
  Lemma imports_trans d i d' j : imports docs d i -> docs i = Some d' -> imports docs d' j -> imports docs d j.
  Proof.
    intros I E. induction 1 as [j N|j e k J IH F N]; [exact (imports_further docs d i d' j I E N)|exact (imports_further docs d j e k IH F N)].
  Qed.
  Lemma import_one_visits f : (forall d st st', collect f d st = Ok st' -> exists l, doc_imports d = Some l /\ visits l st st') ->
    forall i st st', import_one f st i = Ok st' -> visits [i] st st'.
  Proof.
    intros H i [v a] st' E. unfold import_one in E. destruct (mem i v) eqn:MI.
    - injection E as <-. apply mem_spec in MI. exists [], []. cbn [fst snd]. rewrite !app_nil_r.
      refine (conj eq_refl (conj eq_refl (conj (Permutation_refl _) (conj (fun H => H) (conj _ (conj _ (conj _ _))))))); [intros ? ? []|intros ? [<-|[]]; exact MI|intros ? []|intros ? []].
    - destruct (docs i) as [d|] eqn:ED; [|discriminate]. destruct (collect f d (v ++ [i], a)) as [[v1 a1]| |] eqn:EC; try discriminate. cbn [bind] in E. injection E as <-.
      destruct (H _ _ _ EC) as (l & EL & n1 & b1 & E1 & F1 & P1 & N1 & C1 & L1 & K1 & R1). cbn [fst snd] in *.
      exists (i :: n1), (b1 ++ [(i, rewrite_ast registry (doc_schema d))]). cbn [fst snd].
      refine (conj _ (conj _ (conj _ (conj _ (conj _ (conj _ (conj _ _))))))).
      + rewrite E1, <- app_assoc. reflexivity.
      + rewrite F1, <- app_assoc. reflexivity.
      + rewrite map_app. cbn. rewrite <- P1. symmetry. apply Permutation_cons_append.
      + intro N. apply N1. apply (Permutation_NoDup (l := i :: v)); [apply Permutation_cons_append|]. constructor; [|exact N].
        intro I. apply mem_spec in I. congruence.
      + intros j b I. apply in_app_or in I. destruct I as [I|[I|[]]]; [exact (C1 j b I)|]. injection I as <- <-. exists d. auto.
      + intros j [<-|[]]. rewrite E1. apply in_or_app. left. apply in_or_app. right. left. reflexivity.
      + intros j [<-|I]; [|exact (K1 j I)]. exists d. split; [exact ED|]. split; [congruence|]. intros j (l' & A & B). apply L1. congruence.
      + intros j [<-|I]; [left; left; reflexivity|]. right. exists i, d. split; [left; reflexivity|]. split; [exact ED|].
        destruct (R1 j I) as [X|(k & d' & X & Y & Z)]; [constructor; exists l; auto|].
        apply (imports_trans d k d' j); [constructor; exists l; auto|exact Y|exact Z].
  Qed.
  Lemma collect_visits f : forall d st st', collect f d st = Ok st' -> exists l, doc_imports d = Some l /\ visits l st st'.
  Proof.
    induction f as [|f IH]; intros d st st' E; [discriminate|]. rewrite collect_unfold in E. destruct (doc_imports d) as [l|]; [|discriminate].
    exists l. split; [reflexivity|]. exact (visits_fold f l (import_one_visits f IH) st st' E).
  Qed.

  (** what a failure means *)
  Definition broken (d : doc) : Prop := doc_imports d = None \/ exists i, imports docs d i /\ (docs i = None \/ exists d', docs i = Some d' /\ doc_imports d' = None).
  Lemma collect_err f : forall d st, collect f d st = Err -> broken d.
  Proof.
    induction f as [|f IH]; intros d st E; [discriminate|]. rewrite collect_unfold in E. destruct (doc_imports d) as [l|] eqn:EL; [|left; exact EL].
    assert (H : forall l' st, incl l' l -> fold_left (fun st i => bind st (fun x => import_one f x i)) l' (Ok st) = Err -> broken d).
    { induction l' as [|i l' IL]; intros st0 S X; [discriminate|]. cbn [fold_left bind] in X.
      destruct (import_one f st0 i) as [st1| |] eqn:E1; [exact (IL st1 (fun j J => S j (or_intror J)) X)| |rewrite fold_fuel in X; discriminate].
      assert (ID : imports docs d i) by (constructor; exists l; split; [exact EL|apply S; left; reflexivity]).
      unfold import_one in E1. destruct st0 as [v a]. destruct (mem i v); [discriminate|]. destruct (docs i) as [d'|] eqn:ED; [|right; exists i; auto].
      destruct (collect f d' (v ++ [i], a)) as [[v1 a1]| |] eqn:EC; try discriminate. destruct (IH _ _ EC) as [B|(j & J & B)].
      - right. exists i. split; [exact ID|]. right. exists d'. auto.
      - right. exists j. split; [exact (imports_trans d i d' j ID ED J)|exact B]. }
    exact (H l st (incl_refl l) E).
  Qed.
  Lemma broken_unavailable d : broken d -> ~ available docs d.
  Proof.
    intros [B|(i & I & B)] (A1 & A2); [exact (A1 B)|]. destruct (A2 i I) as (d' & X & Y). destruct B as [B|(e & B & C)]; congruence.
  Qed.

  (** ** a search from the start *)
  Lemma collect_all f d v asts : collect f d ([], []) = Ok (v, asts) ->
    NoDup v /\ Permutation (map fst asts) v /\ (forall i, In i v <-> imports docs d i) /\ collected asts /\ available docs d.
  Proof.
    intro E. destruct (collect_visits f d _ _ E) as (l & EL & n & a & E1 & F1 & P & N & C & L & K & R). cbn [fst snd app] in *. subst n a.
    assert (IN : forall i, In i v <-> imports docs d i).
    { intro i. split.
      - intro I. destruct (R i I) as [X|(k & d' & X & Y & Z)]; [constructor; exists l; auto|].
        apply (imports_trans d k d' i); [constructor; exists l; auto|exact Y|exact Z].
      - induction 1 as [i (l' & A & B)|i d' j I IH ED NJ]; [apply L; congruence|]. destruct (K i IH) as (e & X & _ & Z). apply Z. congruence. }
    split; [apply N; constructor|]. split; [exact P|]. split; [exact IN|]. split; [exact C|]. split; [congruence|].
    intros i I. apply IN in I. destruct (K i I) as (d' & X & Y & _). exists d'. auto.
  Qed.

  (** ** it ends *)
  Definition left_over (all v : list nat) : nat := length (filter (fun i => negb (mem i v)) all).
  Lemma left_over_le all v v' : (forall i, In i v -> In i v') -> left_over all v' <= left_over all v.
  Proof.
    intro S. unfold left_over. induction all as [|i all IH]; [auto|]. cbn [filter].
    destruct (mem i v) eqn:A; cbn [negb].
    - replace (mem i v') with true by (symmetry; apply mem_spec, S, mem_spec, A). exact IH.
    - destruct (mem i v'); cbn; lia.
  Qed.
  Lemma left_over_lt all v i : In i all -> ~ In i v -> left_over all (v ++ [i]) < left_over all v.
  Proof.
    intros I N. unfold left_over. induction all as [|k all IH]; [destruct I|]. cbn [filter].
    pose proof (left_over_le all v (v ++ [i]) (fun j J => in_or_app _ _ _ (or_introl J))) as LE. unfold left_over in LE.
    destruct (Nat.eq_dec k i) as [->|NE].
    - replace (mem i (v ++ [i])) with true by (symmetry; apply mem_spec, in_or_app; right; left; reflexivity).
      destruct (mem i v) eqn:A; [apply mem_spec in A; tauto|]. cbn. lia.
    - destruct I as [I|I]; [congruence|]. specialize (IH I).
      replace (mem k (v ++ [i])) with (mem k v).
      + destruct (mem k v); cbn; lia.
      + apply eq_true_iff_eq. rewrite !mem_spec, in_app_iff. cbn. intuition congruence.
  Qed.
  Lemma collect_grows f d st st' : collect f d st = Ok st' -> forall i, In i (fst st) -> In i (fst st').
  Proof. intro E. destruct (collect_visits f d st st' E) as (l & _ & n & a & E1 & _). intros i I. rewrite E1. apply in_or_app. auto. Qed.
  Lemma collect_ends all (P : nat -> Prop) : (forall i, P i -> In i all) -> (forall i d' j, P i -> docs i = Some d' -> names d' j -> P j) ->
    forall f d st, (forall j, names d j -> P j) -> left_over all (fst st) < f -> collect f d st <> OutOfFuel.
  Proof.
    intros AL CL. induction f as [|f IH]; intros d st D H; [lia|]. rewrite collect_unfold. destruct (doc_imports d) as [l|] eqn:EL; [|discriminate].
    assert (X : forall l' st, incl l' l -> left_over all (fst st) <= f -> fold_left (fun st i => bind st (fun x => import_one f x i)) l' (Ok st) <> OutOfFuel).
    { induction l' as [|i l' IL]; intros st0 S LE; [discriminate|]. cbn [fold_left bind].
      assert (IA : P i) by (apply D; exists l; split; [exact EL|apply S; left; reflexivity]).
      destruct (import_one f st0 i) as [st1| |] eqn:E1.
      - apply IL; [intros j J; apply S; right; exact J|]. destruct st0 as [v a]. unfold import_one in E1. destruct (mem i v); [injection E1 as <-; exact LE|].
        destruct (docs i) as [d'|]; [|discriminate]. destruct (collect f d' (v ++ [i], a)) as [[v1 a1]| |] eqn:EC; try discriminate. injection E1 as <-. cbn [fst] in *.
        pose proof (collect_grows _ _ _ _ EC) as G. cbn [fst] in G. 
        pose proof (left_over_le all v v1 (fun j J => G j (in_or_app _ _ _ (or_introl J)))). lia.
      - rewrite fold_err. discriminate.
      - exfalso. destruct st0 as [v a]. unfold import_one in E1. destruct (mem i v) eqn:MI; [discriminate|].
        destruct (docs i) as [d'|] eqn:ED; [|discriminate]. destruct (collect f d' (v ++ [i], a)) as [[v1 a1]| |] eqn:EC; try discriminate.
        apply (IH d' (v ++ [i], a)); [intros j NJ; exact (CL i d' j IA ED NJ)| |exact EC]. cbn [fst] in *.
        assert (NI : ~ In i v) by (intro I; apply mem_spec in I; congruence). pose proof (left_over_lt all v i (AL i IA) NI). lia. }
    apply X; [apply incl_refl|lia].
  Qed.

  (** more fuel changes nothing *)
  Lemma collect_more f : forall d st, collect f d st <> OutOfFuel -> collect (S f) d st = collect f d st.
  Proof.
    induction f as [|f IH]; intros d st N; [destruct (N eq_refl)|]. rewrite collect_unfold in N |- *. rewrite (collect_unfold f). destruct (doc_imports d) as [l|]; [|reflexivity].
    revert st N. induction l as [|i l IL]; intros st N; [reflexivity|]. cbn [fold_left bind] in *.
    assert (E : import_one (S f) st i = import_one f st i).
    { destruct (import_one f st i) as [st1| |] eqn:E1; [| |rewrite fold_fuel in N; destruct (N eq_refl)];
      rewrite <- E1; destruct st as [v a]; unfold import_one in *; (destruct (mem i v); [reflexivity|]); (destruct (docs i) as [d'|]; [|reflexivity]);
      (rewrite IH; [reflexivity|]); destruct (collect f d' (v ++ [i], a)); cbn in E1; congruence. }
    rewrite E. destruct (import_one f st i) as [st1| |]; [exact (IL st1 N)|rewrite !fold_err; reflexivity|rewrite !fold_fuel; reflexivity].
  Qed.
  Lemma collect_enough f k d st : collect f d st <> OutOfFuel -> collect (k + f) d st = collect f d st.
  Proof.
    intro N. induction k as [|k IH]; [reflexivity|]. cbn [Nat.add]. rewrite collect_more; [exact IH|rewrite IH; exact N].
  Qed.
End Collect.

(** ** the meaning of a schema depends on the set of imported schemas *)
Scheme unfold_te_min := Minimality for unfold_te Sort Prop
with unfold_tes_min := Minimality for unfold_tes Sort Prop
with unfold_se_min := Minimality for unfold_se Sort Prop
with unfold_ses_min := Minimality for unfold_ses Sort Prop.
Lemma unfold_mono (L L' : nat -> ate -> Prop) : (forall r te, L r te -> L' r te) -> forall e e', unfold_se L e e' -> unfold_se L' e e'.
Proof.
  intro H. apply (unfold_se_min L (unfold_te L') (unfold_tes L') (unfold_se L') (unfold_ses L')); intros; econstructor; eauto.
Qed.

Section Same.
  Variable l1 l2 : list aschema.
  Variable root : aschema.
  Hypothesis SUB : forall a, In a (l1 ++ [root]) <-> In a (l2 ++ [root]).
  Lemma same_declared l e : declared l1 root l e -> declared l2 root l e.
  Proof. intros [(a & d & I & H)|H]; [left; exists a, d; split; [apply SUB, I|exact H]|right; exact H]. Qed.
  Lemma same_labelled r te : labelled l1 root r te -> labelled l2 root r te.
  Proof. intros (a & e & c & x & t & ex & I & H). exists a, e, c, x, t, ex. split; [apply SUB, I|exact H]. Qed.
  Lemma same_defines l e : defines l1 root l e -> defines l2 root l e.
  Proof. intros (e0 & D & U). exists e0. split; [apply same_declared, D|]. exact (unfold_mono _ _ same_labelled _ _ U). Qed.
  Lemma same_consistent : consistent l2 root -> consistent l1 root.
  Proof. intros C a a' d d' I I'. exact (C a a' d d' (proj1 (SUB a) I) (proj1 (SUB a') I')). Qed.
  Lemma same_unambiguous : unambiguous l2 root -> unambiguous l1 root.
  Proof. intros U r te te' A B. exact (U r te te' (same_labelled r te A) (same_labelled r te' B)). Qed.
  Lemma same_positive : all_positive l2 root -> all_positive l1 root.
  Proof. intros P l e D. exact (P l e (same_defines l e D)). Qed.
  Lemma same_fragment : all_in_fragment l2 root -> all_in_fragment l1 root.
  Proof. intros [A P]. split; [intros a d I; exact (A a d (proj1 (SUB a) I))|]. intros l e D. exact (P l e (same_defines l e D)). Qed.
  Lemma same_has eval ext g n l : has_shape eval ext g l1 root n l -> has_shape eval ext g l2 root n l.
  Proof.
    intros (T & Tn & J). exists T. split; [exact Tn|]. intros m j H. destruct (J m j H) as (e & D & X). exists e. split; [apply same_defines, D|exact X].
  Qed.
End Same.

(** ** external shapes *)
Lemma lookup_says decls l m : lookup_decl decls l = Some m -> says decls l (d_expr m).
Proof.
  unfold lookup_decl. induction decls as [|d decls IH]; [discriminate|]. cbn [List.find]. destruct (Nat.eqb_spec (d_id d) l) as [E|E].
  - intro H. injection H as <-. exists [], d, decls. repeat split; auto; intros ? [].
  - intro H. destruct (IH H) as (b & d' & a & -> & A & B & C). exists (d :: b), d', a. repeat split; auto. intros x [<-|I]; auto.
Qed.
Lemma says_lookup decls l e : says decls l e -> exists m, lookup_decl decls l = Some m /\ d_expr m = e.
Proof.
  intros (b & d & a & -> & A & B & C). exists d. split; [|exact B]. unfold lookup_decl. induction b as [|x b IH].
  - cbn [List.find app]. rewrite A, Nat.eqb_refl. reflexivity.
  - cbn [List.find app]. destruct (Nat.eqb_spec (d_id x) l) as [E|E]; [destruct (C x (or_introl eq_refl) E)|]. apply IH. intros y I. apply C. right. exact I.
Qed.
Definition rewrite_all (registry : list (list decl)) (d : decl) : decl := fold_left (fun d r => rewrite_decl r d) registry d.
Lemma rewrite_ast_map registry a : rewrite_ast registry a = mkAschema (a_start a) (map (rewrite_all registry) (a_shapes a)).
Proof.
  unfold rewrite_ast. revert a. induction registry as [|r registry IH]; intro a; cbn [fold_left].
  - destruct a as [st sh]. cbn. f_equal. induction sh as [|d sh IH]; [reflexivity|]. cbn. f_equal. exact IH.
  - rewrite IH. unfold rewrite_one. cbn [a_start a_shapes]. f_equal. rewrite map_map. apply map_ext. intro d. reflexivity.
Qed.
Lemma rewrite_all_own registry d : d_expr d <> AExternal -> rewrite_all registry d = d.
Proof.
  unfold rewrite_all. intro N. induction registry as [|r registry IH]; [reflexivity|]. cbn [fold_left].
  assert (rewrite_decl r d = d) as -> by (unfold rewrite_decl; destruct (d_expr d); congruence). exact IH.
Qed.
Lemma rewrite_decl_keeps r d : d_id (rewrite_decl r d) = d_id d /\ d_abstract (rewrite_decl r d) = d_abstract d.
Proof. unfold rewrite_decl. destruct (d_expr d); auto. destruct (lookup_decl r (d_id d)); auto. Qed.
Lemma rewrite_all_keeps registry : forall d, d_id (rewrite_all registry d) = d_id d /\ d_abstract (rewrite_all registry d) = d_abstract d.
Proof.
  unfold rewrite_all. induction registry as [|r registry IH]; intro d; [auto|]. cbn [fold_left]. destruct (IH (rewrite_decl r d)) as [A B].
  destruct (rewrite_decl_keeps r d) as [C D]. rewrite A, B. auto.
Qed.
Definition external_dec (e : ase) : {e = AExternal} + {e <> AExternal}.
Proof. destruct e; (left; reflexivity) || (right; discriminate). Defined.
Lemma rewrite_all_external registry : forall d e, d_expr d = AExternal ->
  (d_expr (rewrite_all registry d) = e /\ e <> AExternal <-> supplied registry (d_id d) e).
Proof.
  induction registry as [|r registry IH]; intros d e X.
  - cbn. split; [intros [A B]; congruence|]. intros (_ & b & ds & a & E & _). destruct b; discriminate.
  - cbn [rewrite_all fold_left]. fold (rewrite_all registry (rewrite_decl r d)).
    destruct (external_dec (d_expr (rewrite_decl r d))) as [Z|Z].
    + rewrite (IH (rewrite_decl r d) e Z), (proj1 (rewrite_decl_keeps r d)).
      assert (SR : forall e', says r (d_id d) e' -> e' = AExternal).
      { intros e' S. apply says_lookup in S. destruct S as (m & L & <-). unfold rewrite_decl in Z. rewrite X, L in Z. exact Z. }
      split.
      * intros (N & b & ds & a & -> & S & P). split; [exact N|]. exists (r :: b), ds, a. repeat split; auto. intros y e' [<-|I]; [apply SR|exact (P y e' I)].
      * intros (N & b & ds & a & E & S & P). split; [exact N|]. destruct b as [|r' b].
        -- injection E as <- ->. destruct (N (SR e S)).
        -- injection E as <- ->. exists b, ds, a. repeat split; auto. intros y e' I. apply P. right. exact I.
    + rewrite (rewrite_all_own registry _ Z). unfold rewrite_decl in *. rewrite X in *. destruct (lookup_decl r (d_id d)) as [m|] eqn:L; [|congruence].
      cbn [d_expr] in *. split.
      * intros [<- N]. split; [exact N|]. exists [], r, registry. split; [reflexivity|]. split; [exact (lookup_says r _ m L)|]. intros ? ? [].
      * intros (N & b & ds & a & E & S & P). split; [|exact N]. destruct b as [|r' b].
        -- injection E as <- ->. apply says_lookup in S. destruct S as (m' & L' & <-). congruence.
        -- injection E as <- ->. destruct Z. exact (P r _ (or_introl eq_refl) (lookup_says r _ m L)).
Qed.
