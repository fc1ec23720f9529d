(** Lemmas about the class-based enumeration. *)

Require Import List Arith Bool Lia Permutation Sorted.
Import ListNotations.
From Verif Require Import RbeModel RbeSpec RbeFeasModel RbeFeas PendingModel PendingSpec PendingLemmas
  TableModel TableSpec TableLemmas StepModel StepSpec StepLemmas ClassModel ClassSpec.

Lemma Forall2_len {A B} (R : A -> B -> Prop) l m : Forall2 R l m -> length l = length m.
Proof. induction 1; simpl; auto. Qed.

Lemma Forall2_imp {A B} (R Q : A -> B -> Prop) l m : (forall a b, R a b -> Q a b) -> Forall2 R l m -> Forall2 Q l m.
Proof. induction 2; constructor; auto. Qed.

(** ** sorting *)

Lemma insert_perm x l : Permutation (x :: l) (insert x l).
Proof.
  induction l as [|y l IH]; simpl; [apply Permutation_refl|]. destruct (x <=? y); [apply Permutation_refl|].
  etransitivity; [apply perm_swap|]. apply perm_skip. exact IH.
Qed.
Lemma sort_perm l : Permutation l (sort l).
Proof.
  induction l as [|x l IH]; simpl; [constructor|]. etransitivity; [apply perm_skip; exact IH|]. apply insert_perm.
Qed.
Lemma insert_ascending x l : ascending l -> ascending (insert x l).
Proof.
  induction 1 as [|y l S IH F]; simpl; [repeat constructor|].
  destruct (Nat.leb_spec x y).
  - constructor; [constructor; assumption|]. constructor; [exact H|]. eapply Forall_impl; [|exact F]. simpl. intros; lia.
  - constructor; [exact IH|]. rewrite Forall_forall in *. intros z Hz.
    assert (I1 : In z (x :: l)) by (eapply Permutation_in; [symmetry; apply insert_perm|exact Hz]).
    destruct I1 as [<-|I1]; [lia|auto].
Qed.
Lemma sort_ascending l : ascending (sort l).
Proof. induction l; simpl; [constructor|apply insert_ascending; assumption]. Qed.
Lemma ascending_unique a b : ascending a -> ascending b -> Permutation a b -> a = b.
Proof.
  intros A B P. destruct (asc_min a b A P) as [E|L]; [exact E|].
  destruct (asc_min b a B (Permutation_sym P)) as [E|L']; [auto|].
  destruct (lex_irrefl a (lex_trans _ _ _ L L')).
Qed.
Lemma sort_eq a b : Permutation a b -> sort a = sort b.
Proof.
  intro P. apply ascending_unique; try apply sort_ascending.
  etransitivity; [symmetry; apply sort_perm|]. etransitivity; [exact P|apply sort_perm].
Qed.
Lemma sort_id a : ascending a -> sort a = a.
Proof. intro A. apply ascending_unique; [apply sort_ascending|exact A|symmetry; apply sort_perm]. Qed.

(** ** walks as functions *)

Fixpoint walk_list {A} (next : A -> option A) (fuel : nat) (a : A) : list A :=
  a :: match fuel with
       | 0 => []
       | S fuel => match next a with Some b => walk_list next fuel b | None => [] end
       end.
Lemma walk_list_walk {A} (next : A -> option A) a l : walk next a l -> forall fuel, length l <= S fuel -> walk_list next fuel a = l.
Proof.
  induction 1 as [a N|a b l N W IH]; intros fuel H.
  - destruct fuel; simpl; [reflexivity|]. rewrite N. reflexivity.
  - destruct fuel; simpl in H.
    + inversion W; subst; simpl in H; lia.
    + simpl. rewrite N. f_equal. apply IH. lia.
Qed.

Definition perms_from (p : list nat) : list (list nat) := walk_list next_perm_option (length (words p (length p))) p.
Lemma perms_from_spec p : visits p (perms_from p) /\ NoDup (perms_from p) /\
  forall c, In c (perms_from p) <-> Permutation p c /\ (p = c \/ lex p c).
Proof.
  destruct (visits_from p) as (l & V & S & M). assert (ND : NoDup l) by exact (sorted_nodup lex l lex_irrefl S).
  assert (E : perms_from p = l).
  { unfold perms_from. apply walk_list_walk; [apply visits_walk; [exact next_permutation_no_panic|exact V]|].
    apply le_S. apply NoDup_incl_length; [exact ND|]. intros c Hc. apply M in Hc. destruct Hc as [P _].
    apply words_spec; [symmetry; apply Permutation_length; exact P|]. intros x Hx. eapply Permutation_in; [symmetry; exact P|exact Hx]. }
  rewrite E. auto.
Qed.

Definition comps (n e : nat) : list (list nat) :=
  walk_list next_composition (length (words (seq 0 (S n)) e)) (first_composition n e).
Lemma comps_spec n e : 0 < e -> comp_visits (first_composition n e) (comps n e) /\ NoDup (comps n e) /\
  forall c, In c (comps n e) <-> length c = e /\ list_sum c = n.
Proof.
  intro P. destruct (first_composition_sum n e P) as [E0 S0].
  assert (NE : first_composition n e <> []) by (intro K; rewrite K in E0; simpl in E0; lia).
  destruct (comp_visits_from _ NE) as (l & V & _). destruct (comp_visits_all n e l P V) as (_ & ND & M).
  assert (E : comps n e = l).
  { unfold comps. apply walk_list_walk; [apply comp_visits_walk; exact V|].
    apply le_S. apply NoDup_incl_length; [exact ND|]. intros c Hc. apply M in Hc. destruct Hc as [E S].
    apply words_spec; [exact E|]. intros x Hx. apply in_seq. apply in_le_sum in Hx. lia. }
  rewrite E. auto.
Qed.

(** ** the odometer over the classes *)

Inductive odo : list (list nat) -> list (list (list nat)) -> Prop :=
| odo_nil : odo [] [[]]
| odo_cons p rest more : odo rest (rest :: more) ->
    odo (p :: rest) (map (fun a => a :: rest) (perms_from p) ++
                     flat_map (fun r => map (fun a => a :: r) (perms_from (sort p))) more).

Lemma perms_from_head p : exists l, perms_from p = p :: l.
Proof.
  destruct (perms_from_spec p) as (V & _). inversion V; eauto.
Qed.

Lemma odo_head ps l : odo ps l -> exists more, l = ps :: more.
Proof. intro H. inversion H; [eauto|]. destruct (perms_from_head p) as (l' & E). rewrite E. simpl. eauto. Qed.

Lemma perms_from_step p l : perms_from p = p :: l ->
  (l = [] /\ next_permutation p = Last) \/ exists p', next_permutation p = Next p' /\ l = perms_from p'.
Proof.
  intro E. destruct (perms_from_spec p) as (V & _). rewrite E in V. inversion V as [a N|a b l' N V']; subst; [auto|].
  right. exists b. split; [exact N|]. destruct (perms_from_spec b) as (V2 & _). exact (visits_det _ _ _ V' V2).
Qed.

Lemma odo_step : forall ps more, odo ps (ps :: more) ->
  (exists ps' more', advance_perms ps = Some (true, ps') /\ more = ps' :: more' /\ odo ps' more) \/
  (exists ps', advance_perms ps = Some (false, ps') /\ more = []).
Proof.
  induction ps as [|p rest IH]; intros more H; inversion H as [E|p0 r0 more0 H0 E1 E2]; subst.
  - right. exists []. auto.
  - destruct (perms_from_head p) as (l & El). rewrite El in E2. simpl in E2. injection E2 as E2. subst more.
    simpl. destruct (perms_from_step p l El) as [[-> N]|(p' & N & ->)]; rewrite N.
    + simpl. destruct (IH more0 H0) as [(rest' & more' & A & E & O)|(rest' & A & E)]; rewrite A; simpl; subst more0.
      * left. exists (sort p :: rest'). simpl. destruct (perms_from_head (sort p)) as (q & Eq).
        eexists. split; [reflexivity|]. split; [rewrite Eq; simpl; reflexivity|].
        pose proof (odo_cons (sort p) rest' more' O) as X. rewrite (sort_id _ (sort_ascending p)) in X. exact X.
      * right. eauto.
    + left. exists (p' :: rest). destruct (perms_from_head p') as (q & Eq).
      eexists. split; [reflexivity|]. split; [rewrite Eq; simpl; reflexivity|].
      assert (P : Permutation p p').
      { pose proof (next_permutation_spec p) as S. rewrite N in S. apply S. }
      rewrite (sort_eq _ _ P). constructor. exact H0.
Qed.

Fixpoint odo_all (ps : list (list nat)) : list (list (list nat)) :=
  match ps with
  | [] => [[]]
  | p :: ps => flat_map (fun r => map (fun a => a :: r) (perms_from p)) (odo_all ps)
  end.

Lemma odo_start ps : Forall ascending ps -> odo ps (odo_all ps).
Proof.
  induction 1 as [|p ps A F IH]; simpl; [constructor|].
  destruct (odo_head _ _ IH) as (more & E). rewrite E. simpl.
  rewrite E in IH. pose proof (odo_cons p ps more IH) as X. rewrite (sort_id p A) in X. exact X.
Qed.

Lemma odo_all_in ps : Forall ascending ps -> forall A, In A (odo_all ps) <-> Forall2 (@Permutation nat) ps A.
Proof.
  induction 1 as [|p ps Ap F IH]; intro A; simpl.
  - split; [intros [<-|[]]; constructor|]. intro H. inversion H. auto.
  - rewrite in_flat_map. destruct (perms_from_spec p) as (_ & _ & M). split.
    + intros (r & Hr & H). apply in_map_iff in H. destruct H as (a & <- & Ha). apply M in Ha. apply IH in Hr.
      constructor; tauto.
    + intro H. inversion H as [|? a ? r P R]; subst. exists r. split; [apply IH; exact R|].
      apply in_map_iff. exists a. split; [reflexivity|]. apply M. split; [exact P|]. apply asc_min; assumption.
Qed.

Lemma NoDup_flat_map {A B} (f : A -> list B) l : NoDup l -> (forall x, In x l -> NoDup (f x)) ->
  (forall x y z, In x l -> In y l -> In z (f x) -> In z (f y) -> x = y) -> NoDup (flat_map f l).
Proof.
  induction l as [|x l IH]; intros ND H D; simpl; [constructor|]. inversion ND as [|? ? N ND']; subst.
  apply NoDup_app_intro.
  - apply H. left. reflexivity.
  - apply IH; [exact ND'|intros; apply H; right; assumption|]. intros a b z Ha Hb. apply D; right; assumption.
  - intros z Hz K. apply in_flat_map in K. destruct K as (y & Hy & K).
    assert (x = y) by (apply (D x y z); [left; reflexivity|right; exact Hy|exact Hz|exact K]). subst. contradiction.
Qed.

Lemma odo_all_NoDup ps : NoDup (odo_all ps).
Proof.
  induction ps as [|p ps IH]; simpl; [repeat constructor; intros []|].
  apply NoDup_flat_map; [exact IH| |].
  - intros r _. apply FinFun.Injective_map_NoDup; [intros a b E; congruence|]. apply perms_from_spec.
  - intros r r' z _ _ H K. apply in_map_iff in H. apply in_map_iff in K.
    destruct H as (a & <- & _). destruct K as (b & E & _). congruence.
Qed.

(** ** the search *)

Section Search.
  Variable eval : nat -> nat -> bool.
  Variable buckets : list (list table).
  Variable classes : list class.
  Notation n := (length classes).
  Notation feas := (feasible_now eval buckets classes).
  Notation current := (current_partition buckets classes).
  Notation settle := (settle eval buckets classes).
  Notation body := (body eval buckets classes).
  Notation search := (search eval buckets classes).
  Notation cp_next := (cp_next eval buckets classes).
  Notation collected := (collected eval buckets classes).

  Lemma settle_mono f cs l r : settle f cs l = Some r -> settle (S f) cs l = Some r.
  Proof.
    revert cs. induction f as [|f IH]; intro cs; simpl.
    - destruct (feas cs); [auto|discriminate].
    - intro H. change (match (if feas cs then Some (true, cs) else match next_comp cs l with
         | None => None | Some (false, c) => Some (false, c) | Some (true, c) => settle (S f) c l end) with x => x end = Some r).
      destruct (feas cs); [exact H|]. destruct (next_comp cs l) as [[[|] c]|]; auto.
  Qed.
  Lemma settle_le f g cs l r : f <= g -> settle f cs l = Some r -> settle g cs l = Some r.
  Proof. induction 1; auto. intro. apply settle_mono. auto. Qed.

  Lemma body_le f g s r : f <= g -> body f s = Some r -> body g s = Some r.
  Proof.
    intro L. unfold ClassModel.body. destruct (st_level s =? n); [auto|].
    destruct (nth (st_level s) (st_counts s) None).
    - destruct (next_comp (st_counts s) (st_level s)) as [[[|] c]|]; auto.
      destruct (settle f c (st_level s)) as [[b c']|] eqn:E; [|discriminate]. rewrite (settle_le f g _ _ _ L E). auto.
    - destruct (settle f (first_comp classes (st_counts s) (st_level s)) (st_level s)) as [[b c']|] eqn:E; [|discriminate].
      rewrite (settle_le f g _ _ _ L E). auto.
  Qed.

  Lemma search_le f g s r : f <= g -> search f s = Some r -> search g s = Some r.
  Proof.
    revert g s. induction f as [|f IH]; intros g s L; [discriminate|]. destruct g as [|g]; [lia|]. simpl.
    destruct (body f s) as [x|] eqn:E; [|discriminate]. rewrite (body_le f g s x ltac:(lia) E).
    destruct x; [apply IH; lia|auto].
  Qed.

  Lemma next_le f g s r : f <= g -> cp_next f s = Some r -> cp_next g s = Some r.
  Proof.
    intro L. unfold ClassModel.cp_next. destruct (st_exhausted s); [auto|]. destruct (st_perms s) as [ps|]; [|apply search_le; exact L].
    destruct (advance_perms ps) as [[[|] ps']|]; [auto| |auto].
    pose proof (search_le f g) as SL. destruct classes; [auto|]. apply SL. exact L.
  Qed.

  Lemma collected_det s l l' : collected s l -> collected s l' -> l = l'.
  Proof.
    intro H. revert l'. induction H as [f s s' N|f s s' x l N H IH]; intros l' H'; inversion H' as [f2 ? s2 N2|f2 ? s2 y l2 N2 H2]; subst.
    - reflexivity.
    - apply (next_le _ (Nat.max f f2)) in N; [|lia]. apply (next_le _ (Nat.max f f2)) in N2; [|lia]. congruence.
    - apply (next_le _ (Nat.max f f2)) in N; [|lia]. apply (next_le _ (Nat.max f f2)) in N2; [|lia]. congruence.
    - apply (next_le _ (Nat.max f f2)) in N; [|lia]. apply (next_le _ (Nat.max f f2)) in N2; [|lia].
      rewrite N in N2. injection N2 as <- <-. f_equal. apply IH. exact H2.
  Qed.

  Definition mk (cs : list (option (list nat))) (l : nat) : state := mkState cs l None false.

  Lemma col_continue f s cs l outs : st_perms s = None -> st_exhausted s = false ->
    body f s = Some (Continue (mk cs l)) -> collected (mk cs l) outs -> collected s outs.
  Proof.
    intros P X B C. assert (Q : forall g r, cp_next g (mk cs l) = Some r -> cp_next (S (Nat.max f g)) s = Some r).
    { intros g r H. unfold ClassModel.cp_next in H |- *. rewrite X, P. simpl in H. simpl.
      rewrite (body_le f (Nat.max f g) _ _ (Nat.le_max_l _ _) B). apply (search_le g); [lia|exact H]. }
    inversion C as [g ? s' N|g ? s' x o N C']; subst.
    - econstructor. apply Q. exact N.
    - econstructor; [apply Q; exact N|exact C'].
  Qed.

  Definition back (l : nat) (cs : list (option (list nat))) (outs : list (list (list (nat * nat)))) : Prop :=
    match l with 0 => outs = [] | S l' => collected (mk cs l') outs end.

  (** the search goes back *)
  Lemma col_back f l cs cs' outs : 
    body f (mk cs l) = Some (match l with
       | 0 => Answer None (mkState (set_nth l None cs') 0 None true)
       | S l' => Continue (mkState (set_nth l None cs') l' None false) end) ->
    back l (set_nth l None cs') outs -> collected (mk cs l) outs.
  Proof.
    intros B K. destruct l as [|l]; simpl in K.
    - subst outs. apply (collected_end _ _ _ (S f) _ (mkState (set_nth 0 None cs') 0 None true)).
      unfold ClassModel.cp_next. simpl. rewrite B. reflexivity.
    - apply (col_continue f (mk cs (S l)) (set_nth (S l) None cs') l); auto.
  Qed.

  Definition st (prefix : list (list nat)) : list (option (list nat)) :=
    map Some prefix ++ repeat None (n - length prefix).

  Lemma st_next prefix c : length prefix < n ->
    nth (length prefix) (st (prefix ++ [c])) None = Some c /\
    (forall x, set_nth (length prefix) (Some x) (st (prefix ++ [c])) = st (prefix ++ [x])) /\
    set_nth (length prefix) None (st (prefix ++ [c])) = st prefix /\
    set_nth (length prefix) (Some c) (st prefix) = st (prefix ++ [c]) /\
    nth (length prefix) (st prefix) None = None.
  Proof.
    intro L.
    assert (Z : forall x, st (prefix ++ [x]) = map Some prefix ++ Some x :: repeat None (n - (length prefix + 1))).
    { intro x. unfold st. rewrite map_app, app_length, <- app_assoc. reflexivity. }
    assert (Z0 : st prefix = map Some prefix ++ None :: repeat None (n - (length prefix + 1))).
    { unfold st. replace (n - length prefix) with (S (n - (length prefix + 1))) by lia. reflexivity. }
    rewrite Z0. setoid_rewrite Z.
    generalize (repeat (@None (list nat)) (n - (length prefix + 1))) as q. intro q.
    replace (length prefix) with (length (map (@Some (list nat)) prefix)) by apply map_length.
    rewrite !set_nth_app, !app_nth2, !Nat.sub_diag by lia. split; [reflexivity|].
    split; [|auto]. intro x. rewrite set_nth_app. reflexivity.
  Qed.

  Fixpoint tuples (rest : list class) (prefix : list (list nat)) : list (list (list nat)) :=
    match rest with
    | [] => match init_perms classes (st prefix) with Some ps => odo_all ps | None => [] end
    | c :: rest =>
        flat_map (fun v => if feas (st (prefix ++ [v])) then tuples rest (prefix ++ [v]) else [])
                 (comps (length (c_values c)) (length (c_eligible c)))
    end.

  Lemma settle_unfold f cs l : settle (S f) cs l = if feas cs then Some (true, cs) else match next_comp cs l with
         | None => None | Some (false, c) => Some (false, c) | Some (true, c) => settle f c l end.
  Proof. reflexivity. Qed.

  Lemma level_lemma prefix rest outs : length prefix < n ->
    (forall c o, collected (mk (st (prefix ++ [c])) (length prefix)) o ->
                 collected (mk (st (prefix ++ [c])) (S (length prefix))) (map current (tuples rest (prefix ++ [c])) ++ o)) ->
    back (length prefix) (st prefix) outs ->
    forall c lst, comp_visits c lst ->
    let g := fun v => if feas (st (prefix ++ [v])) then tuples rest (prefix ++ [v]) else [] in
    exists f b cs', settle f (st (prefix ++ [c])) (length prefix) = Some (b, cs') /\
      if b : bool then collected (mk cs' (S (length prefix))) (map current (flat_map g lst) ++ outs)
      else set_nth (length prefix) None cs' = st prefix /\ flat_map g lst = [].
  Proof.
    intros L IH K c lst V g. induction V as [c N|c d lst N V IHV].
    - destruct (st_next prefix c L) as (A1 & A2 & A3 & A4 & A5).
      destruct (feas (st (prefix ++ [c]))) eqn:F.
      + exists 0, true, (st (prefix ++ [c])). split; [unfold ClassModel.settle; rewrite F; reflexivity|].
        simpl. unfold g. rewrite F, app_nil_r. apply IH.
        apply (col_back 0 _ _ (set_nth (length prefix) None (st (prefix ++ [c])))).
        * unfold ClassModel.body. cbn [mk st_level st_counts st_perms st_exhausted].
          destruct (Nat.eqb_spec (length prefix) n); [lia|]. rewrite A1. unfold next_comp. rewrite A1, N. destruct (length prefix); reflexivity.
        * rewrite A3. replace (set_nth (length prefix) None (st prefix)) with (st prefix); [exact K|].
          rewrite <- A3 at 2. rewrite <- A3. clear. generalize (length prefix) as i, (st (prefix ++ [c])) as q.
          intros i q. revert i. induction q as [|x q IHq]; intros [|i]; simpl; auto. f_equal. apply IHq.
      + exists 1, false, (st prefix). split.
        * rewrite settle_unfold, F. unfold next_comp. rewrite A1, N, A3. reflexivity.
        * split; [|simpl; unfold g; rewrite F; reflexivity].
          rewrite <- A3 at 2. rewrite <- A3. clear. generalize (length prefix) as i, (st (prefix ++ [c])) as q.
          intros i q. revert i. induction q as [|x q IHq]; intros [|i]; simpl; auto. f_equal. apply IHq.
    - destruct (st_next prefix c L) as (A1 & A2 & A3 & A4 & A5).
      destruct IHV as (f & b & cs' & SE & R).
      destruct (feas (st (prefix ++ [c]))) eqn:F.
      + exists 0, true, (st (prefix ++ [c])). split; [unfold ClassModel.settle; rewrite F; reflexivity|].
        cbn [flat_map]. unfold g at 1. rewrite F, map_app, <- app_assoc. apply IH.
        assert (B : body f (mk (st (prefix ++ [c])) (length prefix)) =
                    if b then Some (Continue (mk cs' (S (length prefix))))
                    else Some (match length prefix with
                       | 0 => Answer None (mkState (set_nth (length prefix) None cs') 0 None true)
                       | S l' => Continue (mkState (set_nth (length prefix) None cs') l' None false) end)).
        { unfold ClassModel.body. cbn [mk st_level st_counts st_perms st_exhausted].
          destruct (Nat.eqb_spec (length prefix) n); [lia|]. rewrite A1. unfold next_comp. rewrite A1, N, A2, SE.
          destruct b; [reflexivity|]. destruct (length prefix); reflexivity. }
        destruct b.
        * apply (col_continue f _ cs' (S (length prefix))); auto.
        * destruct R as [R1 R2]. rewrite R2. simpl. apply (col_back f _ _ cs'); [exact B|]. rewrite R1. exact K.
      + exists (S f), b, cs'. split.
        * rewrite settle_unfold, F. unfold next_comp. rewrite A1, N, A2. exact SE.
        * cbn [flat_map]. unfold g at 1 3. rewrite F. exact R.
  Qed.

  Lemma expand_lemma cs outs : back n cs outs -> forall more ps, odo ps (ps :: more) ->
    collected (mkState cs n (Some ps) false) (map current more ++ outs).
  Proof.
    intros K. induction more as [|ps' more IH]; intros ps O; destruct (odo_step ps _ O) as [(q & more' & A & E & O')|(q & A & E)]; try discriminate.
    - simpl. destruct classes as [|c0 cl] eqn:EC.
      + simpl in K. subst outs. eapply (collected_end _ _ _ 0). unfold ClassModel.cp_next. simpl. rewrite A. reflexivity.
      + simpl in K. assert (Q : forall g r, cp_next g (mk cs (length cl)) = Some r -> cp_next g (mkState cs (length (c0 :: cl)) (Some ps) false) = Some r).
        { intros g r H. unfold ClassModel.cp_next in H |- *. simpl in H. cbn [st_exhausted st_perms]. rewrite A, EC. simpl. rewrite Nat.sub_0_r.
          rewrite <- EC. exact H. }
        rewrite EC in Q. inversion K as [g ? s' N|g ? s' x o N C']; subst.
        * econstructor. apply Q. exact N.
        * econstructor; [apply Q; exact N|exact C'].
    - injection E as <- <-. cbn [map app]. eapply (collected_item _ _ _ 0).
      + unfold ClassModel.cp_next. cbn [st_exhausted st_perms]. rewrite A. reflexivity.
      + apply IH. exact O'.
  Qed.

  Definition fperm (c : class) (v : list nat) : list nat :=
    sort (concat (map (fun pc : nat * nat => repeat (nth (fst pc) (c_eligible c) 0) (snd pc)) (enumerate v))).

  Definition fperms (prefix : list (list nat)) : list (list nat) :=
    map (fun cv => fperm (fst cv) (snd cv)) (combine classes prefix).

  Lemma init_perms_full prefix : length prefix = n -> init_perms classes (st prefix) = Some (fperms prefix).
  Proof.
    intro E. unfold st. rewrite E, Nat.sub_diag. simpl. rewrite app_nil_r. unfold init_perms, fperms.
    revert E. generalize classes as cl. induction prefix as [|v prefix IH]; intros [|c cl] E; try discriminate; [reflexivity|].
    injection E as E. simpl. rewrite (IH cl E). reflexivity.
  Qed.

  Lemma fperms_ascending prefix : Forall ascending (fperms prefix).
  Proof. apply Forall_forall. intros p H. apply in_map_iff in H. destruct H as (cv & <- & _). apply sort_ascending. Qed.

  Lemma explore_lemma : forall rest pre prefix outs, classes = pre ++ rest -> length pre = length prefix ->
    (forall c, In c rest -> c_eligible c <> []) ->
    back (length prefix) (st prefix) outs ->
    collected (mk (st prefix) (length prefix)) (map current (tuples rest prefix) ++ outs).
  Proof.
    induction rest as [|c rest IH]; intros pre prefix outs EC EL HE K.
    - rewrite app_nil_r in EC. assert (EN : length prefix = n) by (rewrite EC; auto).
      cbn [tuples]. rewrite (init_perms_full prefix EN).
      destruct (odo_head _ _ (odo_start _ (fperms_ascending prefix))) as (more & EM). rewrite EM. cbn [map app].
      pose proof (odo_start _ (fperms_ascending prefix)) as O. rewrite EM in O.
      apply (collected_item _ _ _ 1 _ (mkState (st prefix) n (Some (fperms prefix)) false)).
      + assert (B : body 0 (mkState (st prefix) (length prefix) None false) =
                    Some (Answer (Some (current (fperms prefix))) (mkState (st prefix) n (Some (fperms prefix)) false))).
        { unfold ClassModel.body. cbn [st_level st_counts st_perms st_exhausted]. rewrite (init_perms_full prefix EN), EN, Nat.eqb_refl. reflexivity. }
        unfold ClassModel.cp_next, mk. cbn [ClassModel.search st_exhausted st_perms].
        rewrite B. reflexivity.
      + apply expand_lemma; [|exact O]. rewrite <- EN. exact K.
    - assert (L : length prefix < n) by (rewrite EC, app_length; simpl; lia).
      assert (NE : c_eligible c <> []) by (apply HE; left; reflexivity).
      assert (P : 0 < length (c_eligible c)) by (destruct (c_eligible c); [contradiction|simpl; lia]).
      destruct (comps_spec (length (c_values c)) (length (c_eligible c)) P) as (V & _ & _).
      destruct (level_lemma prefix rest outs L) with (c := first_composition (length (c_values c)) (length (c_eligible c)))
        (lst := comps (length (c_values c)) (length (c_eligible c))) as (f & b & cs' & SE & R).
      + intros v o Co. replace (S (length prefix)) with (length (prefix ++ [v])) by (rewrite app_length; simpl; lia).
        apply (IH (pre ++ [c])).
        * rewrite <- app_assoc. exact EC.
        * rewrite !app_length. simpl. lia.
        * intros; apply HE; right; assumption.
        * rewrite app_length. simpl. rewrite Nat.add_1_r. exact Co.
      + exact K.
      + exact V.
      + cbn [tuples]. destruct (st_next prefix (first_composition (length (c_values c)) (length (c_eligible c))) L) as (A1 & A2 & A3 & A4 & A5).
        assert (CA : class_at classes (length prefix) = c).
        { unfold class_at. rewrite EC, app_nth2, EL, Nat.sub_diag by lia. reflexivity. }
        assert (B : body f (mk (st prefix) (length prefix)) =
                    if b then Some (Continue (mk cs' (S (length prefix))))
                    else Some (match length prefix with
                       | 0 => Answer None (mkState (set_nth (length prefix) None cs') 0 None true)
                       | S l' => Continue (mkState (set_nth (length prefix) None cs') l' None false) end)).
        { unfold ClassModel.body. cbn [mk st_level st_counts st_perms st_exhausted].
          destruct (Nat.eqb_spec (length prefix) n); [lia|]. rewrite A5. unfold first_comp. rewrite CA, A4, SE.
          destruct b; [reflexivity|]. destruct (length prefix); reflexivity. }
        destruct b.
        * apply (col_continue f _ cs' (S (length prefix))); auto.
        * destruct R as [R1 R2]. rewrite R2. simpl. apply (col_back f _ _ cs'); [exact B|]. rewrite R1. exact K.
  Qed.

  Definition all_tuples : list (list (list nat)) := if feas (st []) then tuples classes [] else [].

  Lemma collected_start : (forall c, In c classes -> c_eligible c <> []) ->
    collected (start eval buckets classes) (map current all_tuples).
  Proof.
    intro HE. unfold start, all_tuples. replace (repeat None n) with (st []) by (unfold st; simpl; rewrite Nat.sub_0_r; reflexivity).
    destruct (feas (st [])) eqn:F; simpl negb.
    - rewrite <- app_nil_r. apply (explore_lemma classes [] [] []); auto. reflexivity.
    - eapply (collected_end _ _ _ 0). reflexivity.
  Qed.

  (** ** what is enumerated *)

  (** the count vector of an assignment of a class *)
  Definition counts_of (c : class) (a : list nat) : list nat := map (count_occ Nat.eq_dec a) (c_eligible c).

  Lemma fperm_perm c v : Permutation (concat (map (fun pc : nat * nat => repeat (nth (fst pc) (c_eligible c) 0) (snd pc)) (enumerate v))) (fperm c v).
  Proof. apply sort_perm. Qed.

  Lemma concat_enum_shift (e : list nat) x v k :
    map (fun pc : nat * nat => repeat (nth (fst pc) (x :: e) 0) (snd pc)) (combine (seq (S k) (length v)) v) =
    map (fun pc : nat * nat => repeat (nth (fst pc) e 0) (snd pc)) (combine (seq k (length v)) v).
  Proof. revert k. induction v as [|c v IH]; intro k; simpl; [reflexivity|]. f_equal. apply IH. Qed.

  Lemma count_repeat (x y m : nat) : count_occ Nat.eq_dec (repeat x m) y = if Nat.eq_dec x y then m else 0.
  Proof. induction m; simpl; destruct (Nat.eq_dec x y); auto. Qed.

  (** the number of times each bucket appears in the expansion of a count vector *)
  Lemma count_expand e v : NoDup e -> length v = length e ->
    map (count_occ Nat.eq_dec (concat (map (fun pc : nat * nat => repeat (nth (fst pc) e 0) (snd pc)) (enumerate v)))) e = v /\
    (forall y, ~ In y e -> count_occ Nat.eq_dec (concat (map (fun pc : nat * nat => repeat (nth (fst pc) e 0) (snd pc)) (enumerate v))) y = 0).
  Proof.
    revert v. induction e as [|x e IH]; intros [|m v] ND E; try discriminate.
    - simpl. auto.
    - injection E as E. inversion ND as [|? ? N ND']; subst. destruct (IH v ND' E) as [A B].
      unfold enumerate in *. cbn [length seq combine map fst snd concat]. change (nth 0 (x :: e) 0) with x. rewrite concat_enum_shift. split.
      + f_equal.
        * rewrite count_occ_app, count_repeat, (B x N). destruct (Nat.eq_dec x x); [lia|contradiction].
        * etransitivity; [|exact A]. apply map_ext_in. intros y Hy. rewrite count_occ_app, count_repeat.
          destruct (Nat.eq_dec x y) as [->|]; [contradiction|reflexivity].
      + intros y Hy. rewrite count_occ_app, count_repeat. rewrite B by (intro K; apply Hy; right; exact K).
        destruct (Nat.eq_dec x y) as [->|]; [destruct Hy; left; reflexivity|reflexivity].
  Qed.

  Lemma fperm_counts c v a : NoDup (c_eligible c) -> length v = length (c_eligible c) ->
    (Permutation (fperm c v) a <-> counts_of c a = v /\ incl a (c_eligible c)).
  Proof.
    intros ND E. destruct (count_expand (c_eligible c) v ND E) as [A B]. split.
    - intro P. assert (Q : Permutation (concat (map (fun pc : nat * nat => repeat (nth (fst pc) (c_eligible c) 0) (snd pc)) (enumerate v))) a).
      { etransitivity; [apply fperm_perm|exact P]. }
      rewrite (Permutation_count_occ Nat.eq_dec) in Q. split.
      + unfold counts_of. etransitivity; [|exact A]. apply map_ext. intro y. symmetry. apply Q.
      + intros y Hy. destruct (in_dec Nat.eq_dec y (c_eligible c)) as [|N]; [assumption|].
        specialize (B y N). rewrite Q in B. apply count_occ_not_In in B. contradiction.
    - intros [C I1]. etransitivity; [symmetry; apply fperm_perm|]. apply (Permutation_count_occ Nat.eq_dec). intro y.
      destruct (in_dec Nat.eq_dec y (c_eligible c)) as [Y|N].
      + rewrite <- C in A. unfold counts_of in A at 2. pose proof (ext_in_map A) as X. rewrite <- C. apply (X y Y).
      + rewrite (B y N). symmetry. apply count_occ_not_In. intro K. apply N, I1, K.
  Qed.

  Lemma counts_sum c a : NoDup (c_eligible c) -> incl a (c_eligible c) -> list_sum (counts_of c a) = length a.
  Proof.
    unfold counts_of. generalize (c_eligible c) as e. intros e ND. revert a. induction a as [|x a IH]; intro I1.
    - simpl. clear. induction e; [reflexivity|exact IHe].
    - specialize (IH (fun y Hy => I1 y (or_intror Hy))). cbn [length]. rewrite <- IH.
      assert (Hx : In x e) by (apply I1; left; reflexivity). clear IH I1.
      assert (G : forall l, NoDup l -> list_sum (map (count_occ Nat.eq_dec (x :: a)) l) =
                   (if in_dec Nat.eq_dec x l then 1 else 0) + list_sum (map (count_occ Nat.eq_dec a) l)).
      { induction l as [|y l IHl]; intro NDl; [reflexivity|]. inversion NDl; subst. cbn [map].
        change (count_occ Nat.eq_dec (x :: a) y + list_sum (map (count_occ Nat.eq_dec (x :: a)) l) =
                (if in_dec Nat.eq_dec x (y :: l) then 1 else 0) + (count_occ Nat.eq_dec a y + list_sum (map (count_occ Nat.eq_dec a) l))).
        rewrite IHl by assumption. cbn [count_occ].
        destruct (Nat.eq_dec x y) as [->|N].
        - destruct (in_dec Nat.eq_dec y l) as [|]; [contradiction|].
          destruct (in_dec Nat.eq_dec y (y :: l)) as [|K]; [lia|destruct K; left; reflexivity].
        - destruct (in_dec Nat.eq_dec x l) as [Y|Z]; destruct (in_dec Nat.eq_dec x (y :: l)) as [Y'|Z'];
            [lia|destruct Z'; right; exact Y|destruct Y' as [Y'|Y']; [congruence|contradiction]|lia]. }
      rewrite (G e ND). destruct (in_dec Nat.eq_dec x e); [lia|contradiction].
  Qed.

  Lemma Forall2_app_r {A B} (R : A -> B -> Prop) l l1 l2 : Forall2 R l (l1 ++ l2) <->
    exists k1 k2, l = k1 ++ k2 /\ Forall2 R k1 l1 /\ Forall2 R k2 l2.
  Proof.
    split.
    - intro H. apply Forall2_app_inv_r in H. destruct H as (k1 & k2 & A1 & A2 & ->). eauto.
    - intros (k1 & k2 & -> & A1 & A2). apply Forall2_app; assumption.
  Qed.

  Definition proper (c : class) (a : list nat) : Prop := length a = length (c_values c) /\ incl a (c_eligible c).

  Hypothesis elig_NoDup : forall c, In c classes -> NoDup (c_eligible c).
  Hypothesis elig_some : forall c, In c classes -> c_eligible c <> [].

  Definition count_vectors (cls : list class) (A : list (list nat)) : list (list nat) :=
    map (fun ca => counts_of (fst ca) (snd ca)) (combine cls A).

  Lemma fperms_in prefix : length prefix = n -> Forall2 (fun c v => length v = length (c_eligible c)) classes prefix -> forall A,
    Forall2 (@Permutation nat) (fperms prefix) A <->
    length A = n /\ count_vectors classes A = prefix /\ Forall2 (fun c a => incl a (c_eligible c)) classes A.
  Proof.
    unfold fperms, count_vectors. revert elig_NoDup. clear elig_some. generalize classes as cl. intro cl. revert prefix.
    induction cl as [|c cl IH]; intros [|v prefix] HN E F A; try discriminate.
    - simpl. split.
      + intro H. inversion H; subst. auto.
      + intros (E1 & _). destruct A; [constructor|discriminate].
    - injection E as E. inversion F as [|? ? ? ? Fv F']; subst. simpl. split.
      + intro H. inversion H as [|? a ? A' P P']; subst.
        apply IH in P'; [|intros; apply HN; right; assumption|exact E|exact F']. destruct P' as (E1 & E2 & F2).
        apply fperm_counts in P; [|apply HN; left; reflexivity|exact Fv]. destruct P as [P1 P2].
        simpl. split; [lia|]. split; [rewrite P1, E2; reflexivity|]. constructor; assumption.
      + intros (E1 & E2 & F2). destruct A as [|a A]; [discriminate|]. inversion F2; subst. simpl in E2. injection E2 as <- E2.
        constructor.
        * apply fperm_counts; [apply HN; left; reflexivity|exact Fv|]. auto.
        * apply IH; [intros; apply HN; right; assumption|exact E|exact F'|]. simpl in E1. auto.
  Qed.

  (** the count vectors of every initial segment pass the test *)
  Definition open_path (prefix vs : list (list nat)) : Prop :=
    forall i, i < length vs -> feas (st (prefix ++ firstn (S i) vs)) = true.

  Lemma tuples_in : forall rest pre prefix, classes = pre ++ rest ->
    Forall2 (fun c v => length v = length (c_eligible c)) pre prefix ->
    forall A, In A (tuples rest prefix) <->
      exists vs, Forall2 (fun c v => length v = length (c_eligible c) /\ list_sum v = length (c_values c)) rest vs /\
        open_path prefix vs /\ length A = n /\ count_vectors classes A = prefix ++ vs /\
        Forall2 (fun c a => incl a (c_eligible c)) classes A.
  Proof.
    induction rest as [|c rest IH]; intros pre prefix EC F A.
    - rewrite app_nil_r in EC. assert (EN : length prefix = n) by (rewrite EC; symmetry; eapply Forall2_len; exact F).
      cbn [tuples]. rewrite (init_perms_full prefix EN), odo_all_in by apply fperms_ascending.
      rewrite fperms_in; [|exact EN|rewrite EC; exact F]. split.
      + intros (E1 & E2 & F2). exists []. rewrite app_nil_r. repeat split; auto. intros i Hi. simpl in Hi. lia.
      + intros (vs & Fv & _ & E1 & E2 & F2). inversion Fv; subst. rewrite app_nil_r in E2. auto.
    - assert (Ic : In c classes) by (rewrite EC; apply in_app_iff; right; left; reflexivity).
      assert (P : 0 < length (c_eligible c)) by (pose proof (elig_some c Ic); destruct (c_eligible c); [contradiction|simpl; lia]).
      destruct (comps_spec (length (c_values c)) (length (c_eligible c)) P) as (_ & _ & M).
      assert (IH' : forall v, length v = length (c_eligible c) -> forall A, In A (tuples rest (prefix ++ [v])) <->
        exists vs, Forall2 (fun c v => length v = length (c_eligible c) /\ list_sum v = length (c_values c)) rest vs /\
        open_path (prefix ++ [v]) vs /\ length A = n /\ count_vectors classes A = (prefix ++ [v]) ++ vs /\
        Forall2 (fun c a => incl a (c_eligible c)) classes A).
      { intros v Ev. apply (IH (pre ++ [c])); [rewrite <- app_assoc; exact EC|]. apply Forall2_app; [exact F|]. repeat constructor. exact Ev. }
      cbn [tuples]. rewrite in_flat_map. split.
      + intros (v & Hv & H). apply M in Hv. destruct Hv as [Ev Sv].
        destruct (feas (st (prefix ++ [v]))) eqn:Fe; [|destruct H].
        apply IH' in H; [|exact Ev]. destruct H as (vs & Fv & O & E1 & E2 & F2).
        exists (v :: vs). split; [constructor; auto|]. split.
        * intros i Hi. destruct i as [|i]; [exact Fe|].
          specialize (O i ltac:(simpl in Hi; lia)). rewrite <- app_assoc in O. exact O.
        * rewrite <- app_assoc in E2. auto.
      + intros (vs & Fv & O & E1 & E2 & F2). inversion Fv as [|? v ? vs' [Ev Sv] Fv']; subst.
        exists v. split; [apply M; auto|]. pose proof (O 0 ltac:(simpl; lia)) as O0. simpl in O0. rewrite O0.
        apply IH'; [exact Ev|]. exists vs'. split; [exact Fv'|]. split.
        * intros i Hi. rewrite <- app_assoc. apply (O (S i)). simpl. lia.
        * rewrite <- app_assoc. auto.
  Qed.

  Lemma tuples_NoDup : forall rest pre prefix, classes = pre ++ rest ->
    Forall2 (fun c v => length v = length (c_eligible c)) pre prefix -> NoDup (tuples rest prefix).
  Proof.
    induction rest as [|c rest IH]; intros pre prefix EC F.
    - cbn [tuples]. destruct (init_perms classes (st prefix)); [apply odo_all_NoDup|constructor].
    - assert (Ic : In c classes) by (rewrite EC; apply in_app_iff; right; left; reflexivity).
      assert (P : 0 < length (c_eligible c)) by (pose proof (elig_some c Ic); destruct (c_eligible c); [contradiction|simpl; lia]).
      destruct (comps_spec (length (c_values c)) (length (c_eligible c)) P) as (_ & ND & M).
      assert (X : forall v, length v = length (c_eligible c) -> Forall2 (fun c v => length v = length (c_eligible c)) (pre ++ [c]) (prefix ++ [v])).
      { intros v Ev. apply Forall2_app; [exact F|]. repeat constructor. exact Ev. }
      assert (EC' : classes = (pre ++ [c]) ++ rest) by (rewrite <- app_assoc; exact EC).
      cbn [tuples]. apply NoDup_flat_map; [exact ND| |].
      + intros v Hv. apply M in Hv. destruct Hv as [Ev _].
        destruct (feas (st (prefix ++ [v]))); [|constructor]. apply (IH (pre ++ [c])); auto.
      + intros v w A Hv Hw HA KA. apply M in Hv. apply M in Hw. destruct Hv as [Ev _]. destruct Hw as [Ew _].
        destruct (feas (st (prefix ++ [v]))); [|destruct HA]. destruct (feas (st (prefix ++ [w]))); [|destruct KA].
        apply (tuples_in rest _ _ EC' (X v Ev)) in HA. apply (tuples_in rest _ _ EC' (X w Ew)) in KA.
        destruct HA as (vs & _ & _ & _ & E & _). destruct KA as (ws & _ & _ & _ & E' & _).
        rewrite E, <- !app_assoc in E'. apply app_inv_head in E'. injection E' as ->. reflexivity.
  Qed.

  Lemma all_tuples_in A : In A all_tuples <-> Forall2 proper classes A /\
    forall i, i <= n -> feas (st (firstn i (count_vectors classes A))) = true.
  Proof.
    assert (G : In A (tuples classes []) <-> Forall2 proper classes A /\
       forall i, i < n -> feas (st (firstn (S i) (count_vectors classes A))) = true).
    { rewrite (tuples_in classes [] []) by (auto; constructor). split.
      - intros (vs & Fv & O & E1 & E2 & F2). simpl in E2. subst vs.
        assert (FP : Forall2 proper classes A).
        { revert Fv F2 E1 elig_NoDup. clear. unfold count_vectors. generalize classes as cl. intro cl. revert A.
          induction cl as [|c cl IH]; intros [|a A] Fv F2 E1 HN; try discriminate; constructor.
          - simpl in Fv. inversion Fv as [|? ? ? ? [X Y] ?]; subst. inversion F2; subst. split; [|assumption].
            rewrite <- Y. symmetry. apply counts_sum; [apply HN; left; reflexivity|assumption].
          - inversion Fv; subst. inversion F2; subst. apply IH; auto. intros; apply HN; right; assumption. }
        split; [exact FP|]. intros i Hi. apply (O i). unfold count_vectors. rewrite map_length, combine_length, E1. lia.
      - intros [FP O]. exists (count_vectors classes A). split.
        { revert FP elig_NoDup. clear. unfold count_vectors. generalize classes as cl. intro cl. revert A.
          induction cl as [|c cl IH]; intros A FP HN; inversion FP as [|? a ? A' [X Y] ?]; subst; constructor.
          - simpl. unfold counts_of at 1. rewrite map_length. split; [reflexivity|]. rewrite counts_sum; auto. apply HN. left. reflexivity.
          - apply IH; auto. intros; apply HN; right; assumption. }
        split.
        { intros i Hi. apply O. unfold count_vectors in Hi. rewrite map_length, combine_length in Hi. lia. }
        split; [symmetry; eapply Forall2_len; exact FP|]. split; [reflexivity|].
        eapply Forall2_imp; [|exact FP]. intros c a [_ Y]. exact Y. }
    unfold all_tuples. destruct (feas (st [])) eqn:F0.
    - rewrite G. split; intros [FP O]; (split; [exact FP|]).
      + intros [|i] Hi; [exact F0|apply O; lia].
      + intros i Hi. apply O. lia.
    - split; [intros []|]. intros [_ O]. specialize (O 0 (Nat.le_0_l _)). simpl in O. congruence.
  Qed.

  Lemma all_tuples_NoDup : NoDup all_tuples.
  Proof.
    unfold all_tuples. destruct (feas (st [])); [|constructor]. apply (tuples_NoDup classes [] []); [reflexivity|constructor].
  Qed.
End Search.
