(** Lemmas about pending tables. *)

Require Import List Arith Bool Lia Permutation.
Import ListNotations.
From Verif Require Import RbeModel RbeInterval PendingModel PendingSpec.

(** ** association lists *)

Definition keys {A} (m : list (nat * A)) := map fst m.

Lemma get_None {A} k (m : list (nat * A)) : ix_get k m = None <-> ~ In k (keys m).
Proof.
  induction m as [|[k' a] m IH]; simpl; [tauto|]. destruct (Nat.eqb_spec k k') as [->|N].
  - split; [discriminate|]. intro H. exfalso. auto.
  - rewrite IH. split; [intros H [K|K]; congruence|tauto].
Qed.

Lemma get_In {A} k a (m : list (nat * A)) : ix_get k m = Some a -> In (k, a) m.
Proof.
  induction m as [|[k' a'] m IH]; simpl; [discriminate|]. destruct (Nat.eqb_spec k k') as [->|N].
  - intro H. injection H as ->. auto.
  - auto.
Qed.

Lemma In_get {A} k a (m : list (nat * A)) : NoDup (keys m) -> (In (k, a) m <-> ix_get k m = Some a).
Proof.
  intro D. split; [|apply get_In]. induction m as [|[k' a'] m IH]; simpl; [tauto|].
  inversion D; subst. intros [H|H].
  - injection H as -> ->. rewrite Nat.eqb_refl. reflexivity.
  - destruct (Nat.eqb_spec k k') as [->|N]; [|auto]. exfalso. apply H1.
    change k' with (fst (k', a)). apply in_map. exact H.
Qed.

Lemma get_upd {A} k f (m : list (nat * A)) k' :
  ix_get k' (ix_upd k f m) = if k' =? k then Some (f (ix_get k m)) else ix_get k' m.
Proof.
  induction m as [|[j a] m IH]; simpl.
  - destruct (Nat.eqb_spec k' k); reflexivity.
  - destruct (Nat.eqb_spec k j) as [->|N]; simpl.
    + destruct (Nat.eqb_spec k' j); reflexivity.
    + rewrite IH. destruct (Nat.eqb_spec k' j) as [->|N2]; [|reflexivity].
      destruct (Nat.eqb_spec j k); [congruence|reflexivity].
Qed.

Lemma keys_upd {A} k f (m : list (nat * A)) x : In x (keys (ix_upd k f m)) <-> x = k \/ In x (keys m).
Proof.
  induction m as [|[j a] m IH]; simpl.
  - intuition.
  - destruct (Nat.eqb_spec k j) as [->|N]; simpl; [intuition|]. rewrite IH. tauto.
Qed.

Lemma NoDup_upd {A} k f (m : list (nat * A)) : NoDup (keys m) -> NoDup (keys (ix_upd k f m)).
Proof.
  induction m as [|[j a] m IH]; simpl; intro D; [repeat constructor; auto|].
  inversion D; subst. destruct (Nat.eqb_spec k j) as [->|N]; simpl; constructor; auto.
  rewrite keys_upd. intros [->|H]; [congruence|contradiction].
Qed.

Lemma Forall_upd {A} (P : A -> Prop) k f (m : list (nat * A)) :
  Forall (fun e => P (snd e)) m -> (forall o, (forall a, o = Some a -> P a) -> P (f o)) ->
  Forall (fun e => P (snd e)) (ix_upd k f m).
Proof.
  intros H F. induction H as [|[j a] m Hx Hm IH]; simpl.
  - constructor; [|constructor]. apply F. discriminate.
  - destruct (k =? j); constructor; auto. apply F. intros b E. injection E as <-. exact Hx.
Qed.

Lemma upd_nonempty {A} k f (m : list (nat * A)) : ix_upd k f m <> [].
Proof. destruct m as [|[j a] m]; simpl; [discriminate|]. destruct (k =? j); discriminate. Qed.

Lemma swap_remove_perm {A} k (m : list (nat * A)) : NoDup (keys m) ->
  Permutation (ix_swap_remove k m) (filter (fun e => negb (fst e =? k)) m).
Proof.
  intro D. unfold ix_swap_remove. destruct (rev m) as [|l t] eqn:E.
  - apply (f_equal (@rev _)) in E. rewrite rev_involutive in E. subst. constructor.
  - apply (f_equal (@rev _)) in E. rewrite rev_involutive in E. simpl in E. set (m0 := rev t) in *.
    clearbody m0. subst m. rewrite removelast_last.
    unfold keys in D. rewrite map_app in D. simpl in D.
    assert (L : ~ In (fst l) (map fst m0)).
    { apply NoDup_remove_2 in D. rewrite app_nil_r in D. exact D. }
    apply NoDup_remove_1 in D. rewrite app_nil_r in D.
    assert (NOk : forall m1 : list (nat * A), ~ In k (map fst m1) -> filter (fun e => negb (fst e =? k)) m1 = m1).
    { clear. intro m1. induction m1 as [|e m1 IH]; simpl; intro H; [reflexivity|].
      destruct (Nat.eqb_spec (fst e) k); [exfalso; auto|]. simpl. f_equal. auto. }
    assert (MAPk : forall m1 : list (nat * A), ~ In k (map fst m1) ->
               map (fun e => if fst e =? k then l else e) m1 = m1).
    { clear. intro m1. induction m1 as [|e m1 IH]; simpl; intro H; [reflexivity|].
      destruct (Nat.eqb_spec (fst e) k); [exfalso; auto|]. f_equal. auto. }
    rewrite filter_app. simpl.
    destruct (Nat.eqb_spec (fst l) k) as [E|N]; simpl.
    + rewrite E in L. rewrite app_nil_r, NOk by exact L. apply Permutation_refl.
    + rewrite existsb_app. simpl. rewrite (proj2 (Nat.eqb_neq _ _) N). rewrite !orb_false_r.
      destruct (existsb (fun e => fst e =? k) m0) eqn:X.
      * apply existsb_exists in X. destruct X as (e & He & Ek). apply Nat.eqb_eq in Ek.
        apply in_split in He. destruct He as (a & b & ->).
        rewrite map_app in D. simpl in D. pose proof (NoDup_remove_2 _ _ _ D) as D2. rewrite Ek in D2.
        rewrite in_app_iff in D2.
        rewrite map_app, filter_app. simpl. rewrite Ek, Nat.eqb_refl. simpl.
        rewrite (MAPk a), (MAPk b), (NOk a), (NOk b) by tauto.
        rewrite <- app_assoc. apply Permutation_app_head. apply Permutation_cons_append.
      * assert (Q : ~ In k (map fst m0)).
        { intro H. apply in_map_iff in H. destruct H as (e & Ee & He).
          assert (existsb (fun e => fst e =? k) m0 = true).
          { apply existsb_exists. exists e. split; [exact He|apply Nat.eqb_eq; exact Ee]. }
          congruence. }
        rewrite NOk by exact Q. rewrite map_app, MAPk by exact Q. simpl.
        destruct (Nat.eqb_spec (fst l) k); [contradiction|]. apply Permutation_refl.
Qed.

Lemma NoDup_filter_keys {A} (f : nat * A -> bool) m : NoDup (keys m) -> NoDup (keys (filter f m)).
Proof.
  unfold keys. induction m as [|e m IH]; simpl; intro D; [constructor|]. inversion D; subst.
  destruct (f e); [|auto]. simpl. constructor; [|auto]. intro H. apply H1.
  apply in_map_iff in H. destruct H as (x & E & Hx). apply filter_In in Hx. rewrite <- E. apply in_map, Hx.
Qed.

Lemma swap_remove_NoDup {A} k (m : list (nat * A)) : NoDup (keys m) -> NoDup (keys (ix_swap_remove k m)).
Proof.
  intro D. unfold keys. eapply Permutation_NoDup; [apply Permutation_sym, Permutation_map, swap_remove_perm; exact D|].
  apply NoDup_filter_keys. exact D.
Qed.

Lemma swap_remove_get {A} k (m : list (nat * A)) k' : NoDup (keys m) ->
  ix_get k' (ix_swap_remove k m) = if k' =? k then None else ix_get k' m.
Proof.
  intro D. pose proof (swap_remove_NoDup k m D) as D2. pose proof (swap_remove_perm k m D) as P.
  assert (G : forall a, ix_get k' (ix_swap_remove k m) = Some a <-> k' <> k /\ ix_get k' m = Some a).
  { intro a. rewrite <- In_get by exact D2. rewrite <- In_get by exact D. split.
    - intro H. apply (Permutation_in _ P) in H. apply filter_In in H. destruct H as [H1 H2]. simpl in H2.
      split; [|exact H1]. intro; subst. rewrite Nat.eqb_refl in H2. discriminate.
    - intros [H1 H2]. apply (Permutation_in _ (Permutation_sym P)). apply filter_In. split; [exact H2|].
      simpl. apply Nat.eqb_neq in H1. rewrite H1. reflexivity. }
  destruct (ix_get k' (ix_swap_remove k m)) as [a|] eqn:E.
  - pose proof (proj1 (G a) eq_refl) as [N E']. apply Nat.eqb_neq in N. rewrite N. symmetry; exact E'.
  - destruct (Nat.eqb_spec k' k); [reflexivity|]. destruct (ix_get k' m) as [a|]; [|reflexivity].
    pose proof (proj2 (G a) (conj n eq_refl)). discriminate.
Qed.

Lemma swap_remove_Forall {A} (P : A -> Prop) k (m : list (nat * A)) : NoDup (keys m) ->
  Forall (fun e => P (snd e)) m -> Forall (fun e => P (snd e)) (ix_swap_remove k m).
Proof.
  intros D H. rewrite Forall_forall in *. intros e He. apply H.
  apply (Permutation_in _ (swap_remove_perm k m D)) in He. apply filter_In in He. apply He.
Qed.

(** ** sets *)

Lemma set_insert_In s k x : In x (set_insert s k) <-> In x s \/ x = k.
Proof.
  unfold set_insert. destruct (mem k s) eqn:M.
  - apply mem_spec in M. split; [auto|intros [H| ->]; assumption].
  - rewrite in_app_iff. simpl. intuition.
Qed.
Lemma set_insert_NoDup s k : NoDup s -> NoDup (set_insert s k).
Proof.
  unfold set_insert. destruct (mem k s) eqn:M; [auto|]. intro D. apply mem_false in M.
  apply (Permutation_NoDup (Permutation_cons_append s k)). constructor; assumption.
Qed.
Lemma set_extend_In ks : forall s x, In x (set_extend s ks) <-> In x s \/ In x ks.
Proof.
  unfold set_extend. induction ks as [|k ks IH]; simpl; intros s x; [tauto|].
  rewrite IH, set_insert_In. intuition.
Qed.
Lemma set_extend_NoDup ks : forall s, NoDup s -> NoDup (set_extend s ks).
Proof.
  unfold set_extend. induction ks as [|k ks IH]; simpl; intros s D; [exact D|].
  apply IH, set_insert_NoDup, D.
Qed.

(** ** the invariant *)

Definition rinv (rm : rmap) : Prop :=
  NoDup (keys rm) /\ rm <> [] /\ Forall (fun re => NoDup (snd re)) rm.
Definition inv (p : pending) : Prop := NoDup (keys p) /\ Forall (fun e => rinv (snd e)) p.

Definition lk (p : pending) (v r : nat) : option (list nat) :=
  match ix_get v p with Some rm => ix_get r rm | None => None end.

Lemma iter_vr_lk p v r ks : inv p -> (In (v, r, ks) (p_iter_vr p) <-> lk p v r = Some ks).
Proof.
  intros [D F]. unfold p_iter_vr, lk. rewrite in_flat_map. split.
  - intros ([v' rm] & He & H). simpl in H. apply in_map_iff in H. destruct H as ([r' ks'] & E & H).
    simpl in E. injection E as <- <- <-. rewrite Forall_forall in F. pose proof (F _ He) as (D1 & _ & _).
    apply In_get in He; [|exact D]. rewrite He. apply In_get; assumption.
  - destruct (ix_get v p) as [rm|] eqn:E; [|discriminate]. intro H. apply get_In in E. exists (v, rm).
    split; [exact E|]. simpl. apply in_map_iff. exists (r, ks). split; [reflexivity|]. apply get_In; exact H.
Qed.

Lemma pair_lk p v r : inv p -> (pair p v r <-> exists ks, lk p v r = Some ks).
Proof.
  intro I. unfold pair. split; intros (ks & H); exists ks; apply (iter_vr_lk p v r ks I); exact H.
Qed.

Lemma iter_of_vr p v r k : In (v, r, k) (p_iter p) <-> exists ks, In (v, r, ks) (p_iter_vr p) /\ In k ks.
Proof.
  unfold p_iter, p_iter_vr. rewrite in_flat_map. split.
  - intros (e & He & H). apply in_flat_map in H. destruct H as (re & Hre & H). apply in_map_iff in H.
    destruct H as (k' & E & Hk). injection E as <- <- <-. exists (snd re). split; [|exact Hk].
    apply in_flat_map. exists e. split; [exact He|]. apply in_map_iff. exists re. auto.
  - intros (ks & H & Hk). apply in_flat_map in H. destruct H as (e & He & H). exists e. split; [exact He|].
    apply in_map_iff in H. destruct H as (re & E & Hre). injection E as <- <- <-.
    apply in_flat_map. exists re. split; [exact Hre|]. apply in_map_iff. eauto.
Qed.

Lemma triple_lk p v r k : inv p -> (triple p v r k <-> exists ks, lk p v r = Some ks /\ In k ks).
Proof.
  intro I. unfold triple. rewrite iter_of_vr.
  split; intros (ks & H & Hk); exists ks; (split; [apply (iter_vr_lk p v r ks I); exact H|exact Hk]).
Qed.

(** ** operations through lookups *)

Lemma lk_upd p v f v' r' :
  lk (ix_upd v f p) v' r' = if v' =? v then ix_get r' (f (ix_get v p)) else lk p v' r'.
Proof. unfold lk. rewrite get_upd. destruct (v' =? v); reflexivity. Qed.

Lemma get_or_default {A} (o : option (list (nat * A))) r :
  ix_get r (or_default [] o) = match o with Some m => ix_get r m | None => None end.
Proof. destruct o; reflexivity. Qed.

Lemma lk_insert p v r v' r' :
  lk (p_insert v r p) v' r' =
  if (v' =? v) && (r' =? r) then Some (or_default [] (lk p v r)) else lk p v' r'.
Proof.
  unfold p_insert. rewrite lk_upd. destruct (Nat.eqb_spec v' v) as [->|]; simpl; [|reflexivity].
  rewrite get_upd, !get_or_default. unfold lk. destruct (r' =? r); reflexivity.
Qed.

Lemma lk_key p v r k v' r' :
  lk (p_insert_with_key v r k p) v' r' =
  if (v' =? v) && (r' =? r) then Some (set_insert (or_default [] (lk p v r)) k) else lk p v' r'.
Proof.
  unfold p_insert_with_key. rewrite lk_upd. destruct (Nat.eqb_spec v' v) as [->|]; simpl; [|reflexivity].
  rewrite get_upd, !get_or_default. unfold lk. destruct (r' =? r); reflexivity.
Qed.

Lemma get_map {A B} (f : A -> B) k (m : list (nat * A)) :
  ix_get k (map (fun e => (fst e, f (snd e))) m) = option_map f (ix_get k m).
Proof. induction m as [|[j a] m IH]; simpl; [reflexivity|]. destruct (k =? j); [reflexivity|exact IH]. Qed.

Lemma lk_annotate p k v r : lk (p_annotate k p) v r = option_map (fun ks => set_insert ks k) (lk p v r).
Proof.
  set (f := fun rm : rmap => map (fun re : nat * list nat => (fst re, set_insert (snd re) k)) rm).
  assert (E : ix_get v (p_annotate k p) = option_map f (ix_get v p)) by exact (get_map f v p).
  unfold lk. rewrite E.
  destruct (ix_get v p) as [rm|]; [|reflexivity]. simpl.
  apply (get_map (fun ks => set_insert ks k)).
Qed.

Definition lmerge (a b : option (list nat)) : option (list nat) :=
  match b with None => a | Some ks => Some (set_extend (or_default [] a) ks) end.

Definition rstep (rm : rmap) (re : nat * list nat) : rmap :=
  ix_upd (fst re) (fun ks => set_extend (or_default [] ks) (snd re)) rm.

Lemma get_rmerge rs : forall rm r, NoDup (keys rs) ->
  ix_get r (fold_left rstep rs rm) = lmerge (ix_get r rm) (ix_get r rs).
Proof.
  induction rs as [|[j ks] rs IH]; intros rm r D; simpl; [reflexivity|].
  inversion D; subst. rewrite IH by assumption. unfold rstep. simpl. rewrite get_upd.
  destruct (Nat.eqb_spec r j) as [->|N]; [|reflexivity].
  assert (E : ix_get j rs = None) by (apply get_None; assumption). rewrite E. reflexivity.
Qed.

Definition mstep (p : pending) (e : nat * rmap) : pending :=
  ix_upd (fst e) (fun o => fold_left rstep (snd e) (or_default [] o)) p.

Lemma lk_merge q : forall p v r, inv q -> lk (p_merge p q) v r = lmerge (lk p v r) (lk q v r).
Proof.
  change (forall p v r, inv q -> lk (fold_left mstep q p) v r = lmerge (lk p v r) (lk q v r)).
  induction q as [|[w rs] q IH]; intros p v r [D F]; simpl; [reflexivity|].
  inversion D; inversion F; subst. rewrite IH by (split; assumption).
  unfold mstep. simpl. rewrite lk_upd.
  assert (X : lk ((w, rs) :: q) v r = if v =? w then ix_get r rs else lk q v r)
    by (unfold lk; simpl; destruct (v =? w); reflexivity).
  rewrite X. clear X.
  destruct (Nat.eqb_spec v w) as [ ->|N]; [|reflexivity].
  rewrite get_rmerge by apply H5. rewrite get_or_default.
  assert (E : lk q w r = None).
  { unfold lk. assert (E : ix_get w q = None) by (apply get_None; assumption). rewrite E. reflexivity. }
  rewrite E. reflexivity.
Qed.

(** ** the invariant is preserved *)

Lemma inv_upd p v f : inv p -> (forall o, (forall rm, o = Some rm -> rinv rm) -> rinv (f o)) -> inv (ix_upd v f p).
Proof. intros [D F] H. split; [apply NoDup_upd; exact D|]. apply (Forall_upd rinv); assumption. Qed.

Lemma rinv_upd o r g : (forall rm, o = Some rm -> rinv rm) ->
  (forall x, (forall ks, x = Some ks -> NoDup ks) -> NoDup (g x)) ->
  rinv (ix_upd r g (or_default [] o)).
Proof.
  intros H G. assert (K : NoDup (keys (or_default [] o)) /\ Forall (fun re => NoDup (snd re)) (or_default [] o)).
  { destruct o as [rm|]; simpl; [destruct (H rm eq_refl) as (A & _ & B); auto|split; constructor]. }
  destruct K as [K1 K2]. split; [apply NoDup_upd; exact K1|]. split; [apply upd_nonempty|].
  apply (Forall_upd (@NoDup nat)); assumption.
Qed.

Lemma NoDup_default o : (forall ks : list nat, o = Some ks -> NoDup ks) -> NoDup (or_default [] o).
Proof. destruct o; simpl; intro H; [apply H; reflexivity|constructor]. Qed.

Lemma inv_merge q : forall p, inv p -> inv q -> inv (p_merge p q).
Proof.
  change (forall p, inv p -> inv q -> inv (fold_left mstep q p)).
  induction q as [|[w rs] q IH]; intros p Ip [D F]; simpl; [exact Ip|].
  inversion D; inversion F; subst. apply IH; [|split; assumption].
  unfold mstep. apply inv_upd; [exact Ip|]. intros o Ho. simpl.
  destruct H5 as (_ & NE & ND). simpl in NE, ND.
  assert (G : forall rs rm, NoDup (keys rm) -> Forall (fun re => NoDup (snd re)) rm ->
             NoDup (keys (fold_left rstep rs rm)) /\ Forall (fun re => NoDup (snd re)) (fold_left rstep rs rm) /\
             (rm <> [] \/ rs <> [] -> fold_left rstep rs rm <> [])).
  { clear. induction rs as [|[j ks] rs IH]; intros rm A B; simpl; [repeat split; tauto|].
    assert (A' : NoDup (keys (rstep rm (j, ks)))) by (apply NoDup_upd; exact A).
    assert (B' : Forall (fun re => NoDup (snd re)) (rstep rm (j, ks))).
    { apply (Forall_upd (@NoDup nat)); [exact B|]. intros o Ho. simpl. apply set_extend_NoDup, NoDup_default, Ho. }
    destruct (IH _ A' B') as (C1 & C2 & C3). split; [exact C1|]. split; [exact C2|].
    intros _. apply C3. left. apply upd_nonempty. }
  assert (K : NoDup (keys (or_default [] o)) /\ Forall (fun re => NoDup (snd re)) (or_default [] o)).
  { destruct o as [rm|]; simpl; [destruct (Ho rm eq_refl) as (A & _ & B); auto|split; constructor]. }
  destruct K as [K1 K2]. destruct (G rs _ K1 K2) as (C1 & C2 & C3). split; [exact C1|]. split; [|exact C2].
  apply C3. right. exact NE.
Qed.

Lemma inv_annotate p k : inv p -> inv (p_annotate k p).
Proof.
  intros [D F]. unfold p_annotate. split.
  - unfold keys. rewrite map_map. simpl. exact D.
  - apply Forall_map. eapply Forall_impl; [|exact F]. intros [v rm] (A & B & C). simpl in *. split.
    + unfold keys. rewrite map_map. exact A.
    + split; [destruct rm; [contradiction|discriminate]|]. apply Forall_map. eapply Forall_impl; [|exact C].
      intros [r ks] H. simpl in *. apply set_insert_NoDup. exact H.
Qed.

Lemma p_pop_inv p v r k q : inv p -> p_pop p = PopSome v r k q ->
  inv q /\ exists ks, lk p v r = Some (ks ++ [k]) /\
  (forall v' r', lk q v' r' = if (v' =? v) && (r' =? r)
                              then match ks with [] => None | _ => Some ks end else lk p v' r').
Proof.
  intros I H. unfold p_pop in H. destruct p as [|[v0 rs] p0]; [discriminate|].
  destruct (rev rs) as [|[r0 ks0] rt] eqn:Er; [discriminate|].
  destruct (rev ks0) as [|k0 kt] eqn:Ek; [discriminate|]. cbv zeta in H.
  injection H as -> -> -> <-. set (p := (v, rs) :: p0) in *.
  apply (f_equal (@rev _)) in Er, Ek. rewrite rev_involutive in Er, Ek. simpl in Er, Ek.
  set (ks := rev kt) in *. clearbody ks. subst ks0. rewrite removelast_last.
  destruct I as [D F]. assert (Rrs : rinv rs) by (inversion F; assumption).
  destruct Rrs as (D1 & NE & N1).
  assert (Gr : ix_get r rs = Some (ks ++ [k])).
  { apply In_get; [exact D1|]. rewrite Er. apply in_app_iff. right. left. reflexivity. }
  assert (NDks : NoDup ks).
  { rewrite Forall_forall in N1. assert (X : In (r, ks ++ [k]) rs) by (apply get_In; exact Gr).
    apply N1 in X. simpl in X. apply NoDup_remove_1 in X. rewrite app_nil_r in X. exact X. }
  assert (Gv : ix_get v p = Some rs) by (unfold p; simpl; rewrite Nat.eqb_refl; reflexivity).
  set (rs1 := ix_upd r (fun _ => ks) rs).
  assert (D1' : NoDup (keys rs1)) by (apply NoDup_upd; exact D1).
  assert (N1' : Forall (fun re => NoDup (snd re)) rs1).
  { apply (Forall_upd (@NoDup nat)); [exact N1|]. intros; exact NDks. }
  set (rs2 := match ks with [] => ix_swap_remove r rs1 | _ => rs1 end).
  assert (D2 : NoDup (keys rs2)) by (unfold rs2; destruct ks; [apply swap_remove_NoDup|]; exact D1').
  assert (N2 : Forall (fun re => NoDup (snd re)) rs2).
  { unfold rs2; destruct ks; [apply (swap_remove_Forall (@NoDup nat)); assumption|exact N1']. }
  assert (G2 : forall r', ix_get r' rs2 = if r' =? r then match ks with [] => None | _ => Some ks end else ix_get r' rs).
  { intro r'. unfold rs2. destruct ks as [|x ks'] eqn:Eks.
    - rewrite swap_remove_get by exact D1'. unfold rs1. rewrite get_upd. destruct (r' =? r); reflexivity.
    - unfold rs1. rewrite get_upd. destruct (r' =? r); reflexivity. }
  set (p1 := ix_upd v (fun _ => rs2) p).
  assert (Dp1 : NoDup (keys p1)) by (apply NoDup_upd; exact D).
  clearbody rs2. split.
  - destruct rs2 as [|e rs2'].
    + split; [apply swap_remove_NoDup; exact Dp1|]. rewrite Forall_forall. intros e He.
      apply (Permutation_in _ (swap_remove_perm v p1 Dp1)) in He. apply filter_In in He. destruct He as [He Hn].
      unfold p1, p in He. simpl in He. rewrite Nat.eqb_refl in He. destruct He as [<-|He].
      * simpl in Hn. rewrite Nat.eqb_refl in Hn. discriminate.
      * inversion F; subst. rewrite Forall_forall in H2. apply H2. exact He.
    + change (inv p1). unfold p1. apply inv_upd; [split; assumption|]. intros _ _. split; [exact D2|]. split; [discriminate|exact N2].
  - exists ks. split; [unfold lk; rewrite Gv; exact Gr|]. intros v' r'.
    assert (L1 : lk p1 v' r' = if v' =? v then ix_get r' rs2 else lk p v' r').
    { unfold p1. rewrite lk_upd. reflexivity. }
    assert (L2 : lk match rs2 with [] => ix_swap_remove v p1 | _ => p1 end v' r' = lk p1 v' r').
    { destruct rs2 as [|e rs2']; [|reflexivity]. unfold lk. rewrite swap_remove_get by exact Dp1.
      destruct (Nat.eqb_spec v' v) as [->|N]; [|reflexivity]. unfold p1. rewrite get_upd, Nat.eqb_refl. reflexivity. }
    eapply eq_trans; [exact L2|]. rewrite L1. destruct (Nat.eqb_spec v' v) as [->|N]; simpl; [|reflexivity].
    rewrite G2. destruct (r' =? r); [reflexivity|]. unfold lk. rewrite Gv. reflexivity.
Qed.

Lemma built_inv p : built p -> inv p.
Proof.
  induction 1.
  - split; constructor.
  - apply inv_upd; [exact IHbuilt|]. intros o Ho. apply rinv_upd; [exact Ho|]. intros x Hx. apply NoDup_default, Hx.
  - apply inv_upd; [exact IHbuilt|]. intros o Ho. apply rinv_upd; [exact Ho|]. intros x Hx.
    apply set_insert_NoDup, NoDup_default, Hx.
  - apply inv_annotate; assumption.
  - apply inv_merge; assumption.
  - eapply p_pop_inv; eauto.
Qed.

(** ** relation-level statements *)

Lemma eqb_pair v r v' r' : ((v' =? v) && (r' =? r)) = true <-> v' = v /\ r' = r.
Proof. rewrite andb_true_iff, !Nat.eqb_eq. tauto. Qed.

Theorem insert_pairs p v r : built p ->
  (forall v' r', pair (p_insert v r p) v' r' <-> pair p v' r' \/ (v' = v /\ r' = r)) /\
  (forall v' r' k, triple (p_insert v r p) v' r' k <-> triple p v' r' k).
Proof.
  intro B. assert (I := built_inv _ B). assert (I' := built_inv _ (built_insert p v r B)). split; intros v' r'.
  - rewrite !pair_lk by assumption. rewrite lk_insert. destruct ((v' =? v) && (r' =? r)) eqn:E.
    + apply eqb_pair in E. split; [auto|]. intros _. eauto.
    + split; [auto|]. intros [H|H]; [exact H|]. apply eqb_pair in H. congruence.
  - intro k. rewrite !triple_lk by assumption. rewrite lk_insert. destruct ((v' =? v) && (r' =? r)) eqn:E; [|tauto].
    apply eqb_pair in E. destruct E as [-> ->]. destruct (lk p v r) as [ks|]; simpl.
    + tauto.
    + split; intros (ks & H & Hk); [injection H as <-; contradiction|discriminate].
Qed.

Theorem key_triples p v r k : built p ->
  (forall v' r', pair (p_insert_with_key v r k p) v' r' <-> pair p v' r' \/ (v' = v /\ r' = r)) /\
  (forall v' r' k', triple (p_insert_with_key v r k p) v' r' k' <->
                    triple p v' r' k' \/ (v' = v /\ r' = r /\ k' = k)).
Proof.
  intro B. assert (I := built_inv _ B). assert (I' := built_inv _ (built_key p v r k B)). split; intros v' r'.
  - rewrite !pair_lk by assumption. rewrite lk_key. destruct ((v' =? v) && (r' =? r)) eqn:E.
    + apply eqb_pair in E. split; [auto|]. intros _. eauto.
    + split; [auto|]. intros [H|H]; [exact H|]. apply eqb_pair in H. congruence.
  - intro k'. rewrite !triple_lk by assumption. rewrite lk_key. destruct ((v' =? v) && (r' =? r)) eqn:E.
    + apply eqb_pair in E. destruct E as [-> ->]. split.
      * intros (ks & H & Hk). injection H as <-. apply set_insert_In in Hk.
        destruct (lk p v r) as [ks|]; simpl in Hk; [|intuition].
        destruct Hk as [Hk|Hk]; [left; eauto|auto].
      * intros [(ks & H & Hk)|(_ & _ & ->)]; eexists; (split; [reflexivity|]); apply set_insert_In; [left|auto].
        rewrite H. exact Hk.
    + split; [auto|]. intros [H|(-> & -> & _)]; [exact H|]. rewrite !Nat.eqb_refl in E. discriminate.
Qed.

Theorem annotate_triples p k : built p ->
  (forall v r, pair (p_annotate k p) v r <-> pair p v r) /\
  (forall v r k', triple (p_annotate k p) v r k' <-> triple p v r k' \/ (pair p v r /\ k' = k)).
Proof.
  intro B. assert (I := built_inv _ B). assert (I' := built_inv _ (built_annotate p k B)). split; intros v r.
  - rewrite !pair_lk by assumption. rewrite lk_annotate. destruct (lk p v r); simpl.
    + split; eauto.
    + split; intros (? & ?); discriminate.
  - intro k'. rewrite !triple_lk, pair_lk by assumption. rewrite lk_annotate. destruct (lk p v r) as [ks|]; simpl.
    + split.
      * intros (x & H & Hk). injection H as <-. apply set_insert_In in Hk. destruct Hk; [left|right]; eauto.
      * intros [(x & H & Hk)|(_ & ->)]; eexists; (split; [reflexivity|]); apply set_insert_In; [left; congruence|auto].
    + split; [intros (? & ? & _); discriminate|]. intros [(? & ? & _)|((? & ?) & _)]; discriminate.
Qed.

Theorem merge_triples p q : built p -> built q ->
  (forall v r, pair (p_merge p q) v r <-> pair p v r \/ pair q v r) /\
  (forall v r k, triple (p_merge p q) v r k <-> triple p v r k \/ triple q v r k).
Proof.
  intros B C. assert (I := built_inv _ B). assert (J := built_inv _ C).
  assert (I' := built_inv _ (built_merge p q B C)). split; intros v r.
  - rewrite !pair_lk by assumption. rewrite lk_merge by assumption.
    destruct (lk p v r) as [a|], (lk q v r) as [b|]; simpl; split; eauto;
      try (intros [(? & ?)|(? & ?)]; discriminate); try (intros (? & ?); discriminate).
  - intro k. rewrite !triple_lk by assumption. rewrite lk_merge by assumption.
    destruct (lk q v r) as [b|]; simpl.
    + split.
      * intros (ks & H & Hk). injection H as <-. apply set_extend_In in Hk. destruct Hk as [Hk|Hk]; [left|right; eauto].
        destruct (lk p v r) as [a|]; [|contradiction]. exists a. auto.
      * intros [(ks & H & Hk)|(ks & H & Hk)]; eexists; (split; [reflexivity|]); apply set_extend_In.
        -- left. rewrite H. exact Hk.
        -- right. congruence.
    + split; [auto|]. intros [H|(? & ? & _)]; [exact H|discriminate].
Qed.

Theorem contains_pair p v r : built p -> (p_contains p v r = true <-> pair p v r).
Proof.
  intro B. rewrite pair_lk by (apply built_inv; exact B). unfold p_contains, lk.
  destruct (ix_get v p) as [rm|]; [|split; [discriminate|intros (? & ?); discriminate]].
  destruct (ix_get r rm); split; try discriminate; eauto. intros (? & ?); discriminate.
Qed.

Lemma len_pairs p : p_len p = length (p_iter_vr p).
Proof.
  unfold p_len, p_iter_vr.
  assert (G : forall n, fold_left (fun c (e : nat * rmap) => c + length (snd e)) p n =
                        n + length (flat_map (fun e : nat * rmap => map (fun re : nat * list nat => (fst e, fst re, snd re)) (snd e)) p)).
  { induction p as [|e p IH]; intro n; simpl; [lia|]. rewrite IH, app_length, map_length. lia. }
  apply G.
Qed.

Lemma NoDup_app_intro {A} (l1 l2 : list A) : NoDup l1 -> NoDup l2 -> (forall x, In x l1 -> ~ In x l2) ->
  NoDup (l1 ++ l2).
Proof.
  induction l1; simpl; intros D1 D2 H; [exact D2|]. inversion D1; subst. constructor.
  - rewrite in_app_iff. intros [K|K]; [contradiction|]. apply (H a); auto.
  - apply IHl1; auto.
Qed.

(** the pairs listed by the iteration are pairwise different, so [len] counts pairs *)
Lemma iter_vr_NoDup p : built p -> NoDup (map fst (p_iter_vr p)).
Proof.
  intro B. apply built_inv in B. destruct B as [D F]. unfold p_iter_vr.
  induction p as [|[v rm] p IH]; simpl; [constructor|]. inversion D; inversion F; subst.
  rewrite map_app, map_map. simpl. apply NoDup_app_intro.
  - destruct H5 as (D1 & _ & _). simpl in D1. clear -D1. unfold keys in D1.
    induction rm as [|[r ks] rm IH]; simpl; [constructor|]. inversion D1; subst. constructor; [|auto].
    intro H. apply H1. apply in_map_iff in H. destruct H as ([r' ks'] & E & H). injection E as ->.
    change r with (fst (r, ks')). apply in_map. exact H.
  - apply IH; assumption.
  - intros [v' r'] H K. apply in_map_iff in H. destruct H as (re & E & H). injection E as <- <-.
    apply in_map_iff in K. destruct K as ([[v2 r2] ks2] & E & K). simpl in E. injection E as -> ->.
    apply in_flat_map in K. destruct K as ([v3 rm3] & K1 & K2). apply in_map_iff in K2.
    destruct K2 as (x & E & _). injection E as <- _ _. apply H1.
    change v3 with (fst (v3, rm3)). apply in_map. exact K1.
Qed.

Theorem pop_spec p : built p ->
  (p_pop p = PopNone <-> forall v r, ~ pair p v r) /\
  (forall v r k q, p_pop p = PopSome v r k q ->
     triple p v r k /\
     (forall v' r' k', triple q v' r' k' <-> triple p v' r' k' /\ ~ (v' = v /\ r' = r /\ k' = k)) /\
     (forall v' r', pair q v' r' <->
        pair p v' r' /\ ~ (v' = v /\ r' = r /\ forall k', triple p v r k' -> k' = k))) /\
  ((forall v r, pair p v r -> exists k, triple p v r k) -> p_pop p <> PopPanic).
Proof.
  intro B. assert (I := built_inv _ B). split; [|split].
  - split.
    + intro H. destruct p as [|[v rs] p].
      * intros v r. rewrite pair_lk by exact I. intros (? & ?); discriminate.
      * unfold p_pop in H. destruct (rev rs) as [|[r ks] ?]; [discriminate|]. destruct (rev ks); discriminate.
    + intro H. destruct p as [|[v rs] p]; [reflexivity|]. exfalso. destruct I as [D F]. inversion F; subst.
      destruct H2 as (_ & NE & _). destruct rs as [|[r ks] rs]; [contradiction|].
      apply (H v r). exists ks. unfold p_iter_vr. simpl. auto.
  - intros v r k q H. destruct (p_pop_inv _ _ _ _ _ I H) as (Iq & ks & L & G).
    assert (NDk : ~ In k ks).
    { destruct I as [D F]. unfold lk in L. destruct (ix_get v p) as [rm|] eqn:E; [|discriminate].
      apply get_In in E. apply get_In in L. rewrite Forall_forall in F. apply F in E. simpl in E.
      destruct E as (_ & _ & E). rewrite Forall_forall in E. apply E in L. simpl in L.
      apply NoDup_remove_2 in L. rewrite app_nil_r in L. exact L. }
    split; [|split].
    + apply triple_lk; [exact I|]. eexists. split; [exact L|]. apply in_app_iff. simpl; auto.
    + intros v' r' k'. rewrite !triple_lk by assumption. rewrite G.
      destruct ((v' =? v) && (r' =? r)) eqn:E.
      * apply eqb_pair in E. destruct E as [-> ->]. rewrite L. split.
        -- intros (ks' & H1 & H2). assert (In k' ks) by (destruct ks; [discriminate|injection H1 as <-; exact H2]).
           split; [eexists; split; [reflexivity|apply in_app_iff; auto]|]. intros (_ & _ & ->). contradiction.
        -- intros ((ks' & H1 & H2) & H3). injection H1 as <-. apply in_app_iff in H2. destruct H2 as [H2|[->|[]]].
           ++ exists ks. split; [destruct ks; [contradiction|reflexivity]|exact H2].
           ++ exfalso. auto.
      * split; [|tauto]. intro H1. split; [exact H1|]. intros (-> & -> & _). rewrite !Nat.eqb_refl in E. discriminate.
    + intros v' r'. rewrite !pair_lk by assumption. rewrite G. destruct ((v' =? v) && (r' =? r)) eqn:E.
      * apply eqb_pair in E. destruct E as [-> ->]. rewrite L. split.
        -- intros (ks' & H1). split; [eauto|]. intros (_ & _ & H2). destruct ks as [|x ks]; [discriminate|].
           apply NDk. left. apply H2. apply triple_lk; [exact I|]. eexists. split; [exact L|]. simpl; auto.
        -- intros (_ & H2). destruct ks as [|x ks]; [|eauto]. exfalso. apply H2. repeat split.
           intros k' Hk'. apply triple_lk in Hk'; [|exact I]. destruct Hk' as (ks' & H3 & H4).
           rewrite L in H3. injection H3 as <-. simpl in H4. destruct H4 as [->|[]]. reflexivity.
      * split; [|tauto]. intro H1. split; [exact H1|]. intros (-> & -> & _). rewrite !Nat.eqb_refl in E. discriminate.
  - intros H. unfold p_pop. destruct p as [|[v rs] p]; [discriminate|].
    destruct (rev rs) as [|[r ks] rt] eqn:Er.
    + exfalso. destruct I as [D F]. inversion F; subst. destruct H2 as (_ & NE & _). simpl in NE.
      apply (f_equal (@rev _)) in Er. rewrite rev_involutive in Er. contradiction.
    + destruct (rev ks) eqn:Ek; [|discriminate].
      apply (f_equal (@rev _)) in Ek. rewrite rev_involutive in Ek. simpl in Ek. subst ks. exfalso.
      assert (Hin : In (r, []) rs) by (apply in_rev; rewrite Er; left; reflexivity).
      assert (HL : lk ((v, rs) :: p) v r = Some []).
      { unfold lk. simpl. rewrite Nat.eqb_refl. apply In_get; [|exact Hin]. destruct I as [D F]. inversion F; subst. apply H2. }
      destruct (H v r) as (k & Hk); [apply pair_lk; eauto|].
      apply triple_lk in Hk; [|exact I]. destruct Hk as (ks & H1 & H2). rewrite HL in H1. injection H1 as <-. contradiction.
Qed.

Lemma merge_algebra p q s : built p -> built q -> built s ->
  same (p_merge p q) (p_merge q p) /\
  same (p_merge (p_merge p q) s) (p_merge p (p_merge q s)) /\
  same (p_merge p p) p /\ same (p_merge p p_empty) p.
Proof.
  intros P Q S.
  pose proof (merge_triples p q P Q) as [A1 A2]. pose proof (merge_triples q p Q P) as [B1 B2].
  pose proof (merge_triples _ s (built_merge p q P Q) S) as [C1 C2].
  pose proof (merge_triples p _ P (built_merge q s Q S)) as [D1 D2].
  pose proof (merge_triples q s Q S) as [E1 E2]. pose proof (merge_triples p p P P) as [F1 F2].
  split; [|split; [|split]]; split; intros.
  - rewrite A1, B1. tauto.
  - rewrite A2, B2. tauto.
  - rewrite C1, D1, A1, E1. tauto.
  - rewrite C2, D2, A2, E2. tauto.
  - rewrite F1. tauto.
  - rewrite F2. tauto.
  - reflexivity.
  - reflexivity.
Qed.

Lemma from_iter_spec l : forall p, built p -> built (p_insert_from_iter l p) /\
  (forall v r k, triple (p_insert_from_iter l p) v r k <-> triple p v r k \/ In (v, r, k) l) /\
  (forall v r, pair (p_insert_from_iter l p) v r <-> pair p v r \/ exists k, In (v, r, k) l).
Proof.
  induction l as [|[[v0 r0] k0] l IH]; intros p B; simpl.
  - split; [exact B|]. split; intros; [tauto|]. split; [tauto|]. intros [H|(k & [])]; exact H.
  - destruct (IH _ (built_key p v0 r0 k0 B)) as (B' & T & P). destruct (key_triples p v0 r0 k0 B) as [KP KT].
    split; [exact B'|]. split.
    + intros v r k. rewrite T, KT. split.
      * intros [[H|(-> & -> & ->)]|H]; auto.
      * intros [H|[H|H]]; auto. injection H as -> -> ->. auto.
    + intros v r. rewrite P, KP. split.
      * intros [[H|(-> & ->)]|(k & H)]; eauto.
      * intros [H|(k & [H|H])]; eauto. injection H as -> -> ->. auto.
Qed.

Lemma built_insert_values v l : forall p, built p -> built (p_insert_values v l p).
Proof.
  induction l as [|[r k] l IH]; intros p B; simpl; [exact B|]. apply IH. constructor. exact B.
Qed.

Lemma keyed_pop p v r k q : built p -> keyed p -> p_pop p = PopSome v r k q -> keyed q.
Proof.
  intros B K E v' r' H. destruct (pop_spec p B) as (_ & P & _). destruct (P v r k q E) as (T & TQ & PQ).
  apply PQ in H. destruct H as [H N]. destruct (K v' r' H) as (k' & Hk).
  destruct (Nat.eq_dec v' v) as [->|Nv]; [|exists k'; apply TQ; split; [exact Hk|tauto]].
  destruct (Nat.eq_dec r' r) as [->|Nr]; [|exists k'; apply TQ; split; [exact Hk|tauto]].
  assert (X : exists k2, triple p v r k2 /\ k2 <> k).
  { assert (D : (forall x, In x (map snd (filter (fun t => (fst (fst t) =? v) && (snd (fst t) =? r)) (p_iter p))) -> x = k) \/
                exists x, In x (map snd (filter (fun t => (fst (fst t) =? v) && (snd (fst t) =? r)) (p_iter p))) /\ x <> k).
    { induction (map snd (filter (fun t => (fst (fst t) =? v) && (snd (fst t) =? r)) (p_iter p))) as [|x l IHl].
      - left. intros x [].
      - destruct (Nat.eq_dec x k) as [->|Nx]; [|right; exists x; simpl; auto].
        destruct IHl as [IHl|(y & Hy & Ny)]; [left|right; exists y; simpl; auto].
        intros y [<-|Hy]; auto. }
    destruct D as [D|(x & Hx & Nx)].
    - exfalso. apply N. repeat split. intros k2 H2. apply D. apply in_map_iff. exists (v, r, k2). split; [reflexivity|].
      apply filter_In. split; [exact H2|]. simpl. rewrite !Nat.eqb_refl. reflexivity.
    - exists x. split; [|exact Nx]. apply in_map_iff in Hx. destruct Hx as ([[v2 r2] k2] & <- & Hx).
      apply filter_In in Hx. destruct Hx as [Hx Ex]. simpl in Ex. apply eqb_pair in Ex. destruct Ex as [-> ->]. exact Hx. }
  destruct X as (k2 & H2 & N2). exists k2. apply TQ. split; [exact H2|]. intros (_ & _ & ->). contradiction.
Qed.

Lemma drain_spec fuel : forall p l, built p -> drain fuel p = Some l ->
  forall v r k, In (v, r, k) l <-> triple p v r k.
Proof.
  induction fuel as [|fuel IH]; intros p l B; simpl; [discriminate|].
  destruct (pop_spec p B) as (N & P & _). destruct (p_pop p) as [|v0 r0 k0 q|] eqn:E; [| |discriminate].
  - intro H. injection H as <-. intros v r k. split; [intros []|]. intro T.
    exfalso. apply (proj1 N eq_refl v r). unfold pair. apply iter_of_vr in T. destruct T as (ks & T & _). eauto.
  - destruct (drain fuel q) as [l'|] eqn:D; [|discriminate]. intro H. injection H as <-. intros v r k.
    destruct (P v0 r0 k0 q eq_refl) as (T & TQ & _).
    simpl. rewrite (IH q l' (built_pop _ _ _ _ _ B E) D), TQ. split.
    + intros [H|[H _]]; [injection H as <- <- <-; exact T|exact H].
    + intro H. destruct (Nat.eq_dec v v0) as [->|]; [|right; split; [exact H|tauto]].
      destruct (Nat.eq_dec r r0) as [->|]; [|right; split; [exact H|tauto]].
      destruct (Nat.eq_dec k k0) as [->|]; [auto|right; split; [exact H|tauto]].
Qed.

Lemma iter_NoDup p : inv p -> NoDup (p_iter p).
Proof.
  intros [D F]. unfold p_iter.
  induction p as [|[v rm] p IH]; simpl; [constructor|]. inversion D; inversion F; subst.
  apply NoDup_app_intro; [|apply IH; assumption|].
  - destruct H5 as (D1 & _ & N1). simpl in D1, N1. clear -D1 N1. unfold keys in D1.
    induction rm as [|[r ks] rm IH]; simpl; [constructor|]. inversion D1; inversion N1; subst.
    apply NoDup_app_intro; [|apply IH; assumption|].
    + simpl in H5. clear -H5. induction H5; simpl; constructor; auto.
      intro K. apply in_map_iff in K. destruct K as (y & E & K). injection E as ->. contradiction.
    + intros t H K. apply in_map_iff in H. destruct H as (k & <- & H). apply in_flat_map in K.
      destruct K as ([r2 ks2] & K1 & K2). apply in_map_iff in K2. destruct K2 as (k2 & E & _).
      simpl in E. injection E as -> _. apply H1. change r with (fst (r, ks2)). apply in_map. exact K1.
  - intros t H K. apply in_flat_map in H. destruct H as (re & H & H'). apply in_map_iff in H'.
    destruct H' as (k & <- & _). apply in_flat_map in K. destruct K as ([v2 rm2] & K1 & K2).
    apply in_flat_map in K2. destruct K2 as (re2 & _ & K2). apply in_map_iff in K2. destruct K2 as (k2 & E & _).
    simpl in E. injection E as -> _ _. apply H1. change v with (fst (v, rm2)). apply in_map. exact K1.
Qed.

Lemma pop_length p v r k q : built p -> p_pop p = PopSome v r k q -> length (p_iter p) = S (length (p_iter q)).
Proof.
  intros B E. destruct (pop_spec p B) as (_ & P & _). destruct (P v r k q E) as (T & TQ & _).
  change (S (length (p_iter q))) with (length ((v, r, k) :: p_iter q)).
  apply Permutation_length. apply NoDup_Permutation.
  - apply iter_NoDup, built_inv, B.
  - constructor; [|apply iter_NoDup, built_inv; eapply built_pop; eauto].
    intro H. apply (proj1 (TQ v r k)) in H. tauto.
  - intros [[v' r'] k']. split.
    + intro H. simpl. destruct (Nat.eq_dec v' v) as [->|]; [|right; apply TQ; split; [exact H|tauto]].
      destruct (Nat.eq_dec r' r) as [->|]; [|right; apply TQ; split; [exact H|tauto]].
      destruct (Nat.eq_dec k' k) as [->|]; [auto|right; apply TQ; split; [exact H|tauto]].
    + intros [H|H]; [injection H as <- <- <-; exact T|]. apply TQ in H. apply H.
Qed.

Lemma drain_total p : built p -> keyed p -> exists l, drain (S (length (p_iter p))) p = Some l.
Proof.
  remember (length (p_iter p)) as n eqn:En. revert p En. induction n as [|n IH]; intros p En B K.
  - simpl. destruct (p_pop p) as [|v r k q|] eqn:E; [eauto| |].
    + pose proof (pop_length p v r k q B E). lia.
    + exfalso. destruct (pop_spec p B) as (_ & _ & NP). exact (NP K E).
  - cbn [drain]. destruct (p_pop p) as [|v r k q|] eqn:E; [eauto| |].
    + destruct (IH q) as (l & Hl).
      * pose proof (pop_length p v r k q B E). lia.
      * eapply built_pop; eauto.
      * eapply keyed_pop; eauto.
      * exists ((v, r, k) :: l). cbn [drain] in Hl. rewrite Hl. reflexivity.
    + exfalso. destruct (pop_spec p B) as (_ & _ & NP). exact (NP K E).
Qed.
