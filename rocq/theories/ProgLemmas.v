(** Reasoning about programs that share a cache: every entry that is ever written is correct. *)
From Coq Require Import List Permutation.
Import ListNotations.
From Verif Require Import ProgModel.

Section Safe.
  Context {K V : Type}.
  Variable correct : K -> V -> Prop.

  (** [safe P p Q]: when the cache only has correct entries and has entries for [P], the program only writes
      correct entries and its answer satisfies [Q]; other threads may act between any two operations *)
  Fixpoint safe {A} (P : K -> Prop) (p : prog K V A) (Q : A -> Prop) : Prop :=
    match p with
    | Ret a => Q a
    | Get k f => (forall v, correct k v -> safe (fun k' => k' = k \/ P k') (f (Some v)) Q) /\ (~ P k -> safe P (f None) Q)
    | Put k v p => correct k v /\ safe (fun k' => k' = k \/ P k') p Q
    | Perm l f => forall l', Permutation l l' -> safe P (f l') Q
    end.

  Lemma safe_mono {A} (p : prog K V A) : forall (P P' : K -> Prop) (Q Q' : A -> Prop),
    (forall k, P k -> P' k) -> (forall a, Q a -> Q' a) -> safe P p Q -> safe P' p Q'.
  Proof.
    induction p as [a|k f IH|k v p IH|X l f IH]; cbn; intros P P' Q Q' HP HQ H.
    - apply HQ, H.
    - destruct H as [H1 H2]. split.
      + intros v C. apply (IH (Some v) (fun k' => k' = k \/ P k') _ Q); [|exact HQ|apply H1, C]. intros k' [E|E]; [left; exact E|right; apply HP, E].
      + intro N. apply (IH None P _ Q _ HP HQ). apply H2. intro C. apply N, HP, C.
    - destruct H as [H1 H2]. split; [exact H1|]. apply (IH (fun k' => k' = k \/ P k') _ Q); [|exact HQ|exact H2].
      intros k' [E|E]; [left; exact E|right; apply HP, E].
    - intros l' L. apply (IH l' P _ Q _ HP HQ), H, L.
  Qed.
  Lemma safe_post {A} (p : prog K V A) P (Q Q' : A -> Prop) : (forall a, Q a -> Q' a) -> safe P p Q -> safe P p Q'.
  Proof. intros H. apply safe_mono; auto. Qed.
  Lemma safe_bind {A B} (p : prog K V A) (f : A -> prog K V B) : forall P (Q : A -> Prop) (R : B -> Prop),
    safe P p Q -> (forall P' a, Q a -> safe P' (f a) R) -> safe P (pbind p f) R.
  Proof.
    induction p as [a|k g IH|k v p IH|X l g IH]; cbn; intros P Q R H F.
    - apply F, H.
    - destruct H as [H1 H2]. split.
      + intros v C. apply (IH (Some v) _ Q); [apply H1, C|exact F].
      + intro N. apply (IH None _ Q); [apply H2, N|exact F].
    - destruct H as [H1 H2]. split; [exact H1|]. apply (IH _ Q); [exact H2|exact F].
    - intros l' L. apply (IH l' _ Q); [apply H, L|exact F].
  Qed.

  (** ** threads *)
  Variable eqb : K -> K -> bool.
  Hypothesis eqb_eq : forall a b, eqb a b = true -> a = b.
  Hypothesis eqb_refl : forall a, eqb a a = true.

  Definition good_cache (c : cache K V) : Prop := forall k v, c k = Some v -> correct k v.
  Definition has (c : cache K V) (k : K) : Prop := c k <> None.
  Lemma good_update c k v : good_cache c -> correct k v -> good_cache (update eqb c k v).
  Proof.
    intros G C k' v' E. unfold update in E. destruct (eqb k' k) eqn:X; [|apply G, E]. injection E as <-. rewrite (eqb_eq k' k X). exact C.
  Qed.
  Lemma has_update c k v k' : has c k' \/ k' = k -> has (update eqb c k v) k'.
  Proof.
    unfold has, update. intros [H| ->].
    - destruct (eqb k' k); [discriminate|exact H].
    - rewrite eqb_refl. discriminate.
  Qed.

  Lemma step_safe {A} c p c' p' (Q : A -> Prop) : step eqb c p c' p' -> good_cache c -> safe (has c) p Q ->
    good_cache c' /\ safe (has c') p' Q /\ forall k, has c k -> has c' k.
  Proof.
    intros H. destruct H as [c k f|c k v p|c X l l' f L]; cbn; intros G S.
    - split; [exact G|]. split; [|auto]. destruct S as [S1 S2]. destruct (c k) as [v|] eqn:E.
      + apply (safe_mono _ (fun k' => k' = k \/ has c k') _ Q Q); [|auto|apply S1, G, E].
        intros k' [->|H]; [unfold has; rewrite E; discriminate|exact H].
      + apply S2. intro H. apply H, E.
    - destruct S as [S1 S2]. split; [apply good_update; assumption|]. split; [|intros k' H; apply has_update; left; exact H].
      apply (safe_mono _ (fun k' => k' = k \/ has c k') _ Q Q); [|auto|exact S2].
      intros k' [->|H]; apply has_update; [right; reflexivity|left; exact H].
    - split; [exact G|]. split; [apply S, L|auto].
  Qed.
  Lemma pool_step_safe {A} c ps c' ps' : pool_step eqb c ps c' ps' -> forall Qs : list (A -> Prop),
    good_cache c -> Forall2 (fun p Q => safe (has c) p Q) ps Qs ->
    good_cache c' /\ Forall2 (fun p Q => safe (has c') p Q) ps' Qs /\ forall k, has c k -> has c' k.
  Proof.
    intros H. induction H as [c p c' p' ps H|c p ps c' ps' H IH]; intros Qs G F.
    - inversion F as [|p0 Q ps0 Qs0 F1 F2]; subst. destruct (step_safe c p c' p' Q H G F1) as (G' & S & M).
      split; [exact G'|]. split; [|exact M]. constructor; [exact S|].
      clear - F2 M. induction F2 as [|p Q ps Qs F1 F2 IH]; constructor; [|exact IH]. apply (safe_mono p (has c) _ Q Q M); auto.
    - inversion F as [|p0 Q ps0 Qs0 F1 F2]; subst. destruct (IH Qs0 G F2) as (G' & S & M).
      split; [exact G'|]. split; [|exact M]. constructor; [|exact S]. apply (safe_mono p (has c) _ Q Q M); auto.
  Qed.
  Lemma pool_run_safe {A} c ps c' rs : pool_run eqb c ps c' rs -> forall Qs : list (A -> Prop),
    good_cache c -> Forall2 (fun p Q => safe (has c) p Q) ps Qs -> good_cache c' /\ Forall2 (fun r (Q : A -> Prop) => Q r) rs Qs.
  Proof.
    intros H. induction H as [c rs|c ps c1 ps1 c2 rs S R IH]; intros Qs G F.
    - split; [exact G|]. revert Qs F. induction rs as [|r rs IH]; intros Qs F; inversion F; subst; constructor; [assumption|auto].
    - destruct (pool_step_safe c ps c1 ps1 S Qs G F) as (G1 & F1 & _). apply (IH Qs G1 F1).
  Qed.
  Lemma safe_any {A} (P : K -> Prop) (p : prog K V A) Q : safe (fun _ => False) p Q -> safe P p Q.
  Proof. apply safe_mono; [intros k []|auto]. Qed.
End Safe.

(** the sequential run is one of the executions *)
Lemma pool_run_app {K V A} eqb c (p : prog K V A) c1 r c2 ps rs : forall (P : pool_run eqb c [p] c1 [r]),
  pool_run eqb c1 ps c2 rs -> pool_run eqb c (p :: ps) c2 (r :: rs).
Proof.
  intros P. remember [p] as l eqn:E1. remember [r] as m eqn:E2. revert p r E1 E2.
  induction P as [c rs0|c ps0 c1 ps1 c2' rs0 S R IH]; intros p r E1 E2 Q.
  - subst rs0. cbn in E1. injection E1 as <-. clear - Q. remember (@Ret K V A r) as x eqn:E.
    induction Q as [c rs|c ps c1 ps1 c2 rs S R IH].
    + subst x. apply (run_done eqb c (r :: rs)).
    + eapply run_step; [apply pool_later, S|exact IH].
  - subst. inversion S as [a b c0 d e S1|a b c0 d e S1]; subst; [|inversion S1].
    eapply run_step; [apply pool_here, S1|]. apply (IH d r eq_refl eq_refl Q).
Qed.
Lemma run_pool {K V A} eqb (p : prog K V A) : forall c, pool_run eqb c [p] (snd (run eqb c p)) [fst (run eqb c p)].
Proof.
  induction p as [a|k f IH|k v p IH|X l f IH]; cbn; intro c.
  - apply (run_done eqb c [a]).
  - eapply run_step; [apply pool_here, step_get|apply IH].
  - eapply run_step; [apply pool_here, step_put|apply IH].
  - eapply run_step; [apply pool_here, step_perm, Permutation_refl|apply IH].
Qed.
