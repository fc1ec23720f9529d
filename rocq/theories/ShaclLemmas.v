(** Every execution of a validation, in whatever order sets are walked, whatever correct entries the cache already
    has and whatever other threads do, finds the results of validating without a cache. *)
From Coq Require Import List Bool NArith ZArith Permutation Lia Arith.
Import ListNotations.
From Verif Require Import PathModel PathSpec PathLemmas ProgModel ProgLemmas ShaclModel ShaclSpec.

Lemma Permutation_flat_map_ext {A B} (f g : A -> list B) l : (forall x, In x l -> Permutation (f x) (g x)) ->
  Permutation (flat_map f l) (flat_map g l).
Proof.
  induction l as [|x l IH]; cbn; intro H; [constructor|]. apply Permutation_app; [apply H; left; reflexivity|]. apply IH. intros y Y. apply H. right. exact Y.
Qed.
Lemma flat_map_ext_in {A B} (f g : A -> list B) l : (forall x, In x l -> f x = g x) -> flat_map f l = flat_map g l.
Proof. induction l as [|x l IH]; cbn; intro H; [reflexivity|]. rewrite (H x), IH; auto. Qed.
Lemma flat_map_app_perm {A B} (f g : A -> list B) l :
  Permutation (flat_map (fun x => f x ++ g x) l) (flat_map f l ++ flat_map g l).
Proof.
  induction l as [|x l IH]; cbn; [constructor|]. rewrite IH. rewrite <- !app_assoc. apply Permutation_app_head.
  rewrite !app_assoc. apply Permutation_app_tail, Permutation_app_comm.
Qed.
Lemma flat_map_swap {A B C} (f : A -> B -> list C) la lb :
  Permutation (flat_map (fun a => flat_map (f a) lb) la) (flat_map (fun b => flat_map (fun a => f a b) la) lb).
Proof.
  induction la as [|a la IH]; cbn.
  - induction lb as [|b lb IHb]; cbn; [constructor|exact IHb].
  - rewrite IH. symmetry. apply (flat_map_app_perm (f a) (fun b => flat_map (fun a => f a b) la)).
Qed.
Lemma filter_perm {A} (f : A -> bool) l l' : Permutation l l' -> Permutation (filter f l) (filter f l').
Proof.
  induction 1; cbn; [constructor|destruct (f x); auto|destruct (f x), (f y); auto using perm_swap|eapply perm_trans; eauto].
Qed.
Lemma no_results_perm l l' : Permutation l l' -> no_results l = no_results l'.
Proof.
  intro P. destruct l, l'; try reflexivity.
  - apply Permutation_nil in P. discriminate.
  - symmetry in P. apply Permutation_nil in P. discriminate.
Qed.
Lemma no_results_nil l : no_results l = true <-> l = [].
Proof. destruct l; cbn; split; congruence. Qed.

Lemma term_eqb_eq a b : term_eqb a b = true <-> a = b.
Proof. destruct (term_eqb_spec a b); split; congruence. Qed.

Section Exec.
  Variable W : world.
  Variable sch : schema.
  Variable rank : nat -> nat.
  Variable start : nat -> term -> Prop.
  Hypothesis F : fine W sch rank start.
  Notation ask := (asked (w_graph W) sch start).

  (** ** results without a cache *)
  Section Pure.
    Variable V : nat -> term -> list result.
    Definition ok (j : nat) (v : term) : bool := no_results (V j v).
    Definition disjoint_b (p : N) (t v : term) : bool :=
      existsb (fun w => match object_of W v, object_of W w with Some a, Some b => term_eqb a b | _, _ => false end) (objects_of W t p).
    Definition each (s : shape) (o : term) (tg : tag) (vs : list term) (bad : term -> bool) : list result :=
      flat_map (fun v => if bad v then [mk s o tg (object_of W v)] else []) vs.
    Definition ceval (s : shape) (c : comp) (t o : term) (vs : list term) : list result :=
      match c with
      | CAnd l => each s o TAnd vs (fun v => negb (forallb (fun j => ok j v) l))
      | COr l => each s o TOr vs (fun v => negb (existsb (fun j => ok j v) l))
      | CXone l => each s o TXone vs (fun v => negb (Nat.eqb (length (filter (fun j => ok j v) l)) 1))
      | CNot i => each s o TNot vs (fun v => ok i v)
      | CNode i => each s o TNode vs (fun v => negb (ok i v))
      | CQualified i sib qmin qmax =>
          let n := Z.of_nat (length (filter (fun v => ok i v && forallb (fun j => negb (ok j v)) sib) vs)) in
          match qmin with Some m => if (n <? m)%Z then [mk s o TQualifiedMin None] else [] | None => [] end ++
          match qmax with Some m => if (m <? n)%Z then [mk s o TQualifiedMax None] else [] | None => [] end
      | CMinCount n => if Nat.eqb n 0 then [] else if length vs <? n then [mk s o TMinCount None] else []
      | CMaxCount n => if n <? length vs then [mk s o TMaxCount None] else []
      | CHasValue v => if negb (tmem v vs) then [mk s o THasValue None] else []
      | CIn l => each s o TIn vs (fun v => negb (tmem v l))
      | CEquals p =>
          match term_as_subject t with
          | None => []
          | Some f => flat_map (fun v => if tmem v vs then [] else [mk s o TEquals (object_of W v)]) (tset (objects_of W f p)) ++
                      flat_map (fun v => if tmem v (tset (objects_of W f p)) then [] else [mk s o TEquals (object_of W v)]) vs
          end
      | CDisjoint p => each s o TDisjoint vs (disjoint_b p t)
      | CLess b p => flat_map (fun w => flat_map (fun v =>
          match object_of W w, object_of W v with
          | Some n1, Some n2 => if not_less W b n2 n1 then [mk s o (TLess b) (Some n2)] else []
          | _, _ => []
          end) vs) (objects_of W t p)
      | CUniqueLang b => if b then map (fun _ => mk s o TUniqueLang None) (repeated W vs) else []
      | CClosed b =>
          if b then
            match term_as_subject t with
            | None => []
            | Some f => flat_map (fun tr =>
                if existsb (N.eqb (snd (fst tr))) (s_allowed s) then []
                else [mkResult o TClosed (s_severity s) (Some (PPred (snd (fst tr)))) (object_of W (snd tr)) (Some (s_id s))])
                (triples_of W f)
            end
          else []
      | CTest k => each s o (TTest k) vs (w_test W k)
      end.
    Definition cevalf (s : shape) (c : comp) (fv : term * list term) : list result :=
      match object_of W (fst fv) with Some o => ceval s c (fst fv) o (snd fv) | None => [] end.
    Definition veval (s : shape) (t : term) : list result :=
      match values W s t with
      | Ok vs => flat_map (fun c => cevalf s c (t, vs)) (s_comps s) ++ flat_map (fun p => flat_map (V p) vs) (s_props s)
      | _ => []
      end.
  End Pure.
  Fixpoint Vf (fuel : nat) (i : nat) (t : term) : list result :=
    match fuel with
    | O => []
    | S n => match get_shape sch i with
             | None => []
             | Some s => if s_deactivated s then [] else veval (Vf n) s t
             end
    end.
  Definition V (i : nat) (t : term) : list result := Vf (S (rank i)) i t.

  Lemma each_ext s o tg vs b b' : (forall v, b v = b' v) -> each s o tg vs b = each s o tg vs b'.
  Proof. intro H. apply flat_map_ext. intro v. rewrite H. reflexivity. Qed.
  Lemma forallb_ext_in {A} (f g : A -> bool) l : (forall x, In x l -> f x = g x) -> forallb f l = forallb g l.
  Proof. induction l as [|x l IH]; cbn; intro H; [reflexivity|]. rewrite (H x), IH; auto. Qed.
  Lemma existsb_ext_in {A} (f g : A -> bool) l : (forall x, In x l -> f x = g x) -> existsb f l = existsb g l.
  Proof. induction l as [|x l IH]; cbn; intro H; [reflexivity|]. rewrite (H x), IH; auto. Qed.
  Lemma ceval_ext V1 V2 s c t o vs : (forall j v, In j (comp_refs c) -> V1 j v = V2 j v) -> ceval V1 s c t o vs = ceval V2 s c t o vs.
  Proof.
    intro H. destruct c; cbn [comp_refs] in H; try reflexivity; cbn [ceval].
    - apply each_ext. intro v. rewrite (forallb_ext_in (fun j => ok V1 j v) (fun j => ok V2 j v)); [reflexivity|]. intros j J. unfold ok. rewrite H; auto.
    - apply each_ext. intro v. rewrite (existsb_ext_in (fun j => ok V1 j v) (fun j => ok V2 j v)); [reflexivity|]. intros j J. unfold ok. rewrite H; auto.
    - apply each_ext. intro v. rewrite (filter_ext_in (fun j => ok V1 j v) (fun j => ok V2 j v)); [reflexivity|]. intros j J. unfold ok. rewrite H; auto.
    - apply each_ext. intro v. unfold ok. rewrite H; [reflexivity|left; reflexivity].
    - apply each_ext. intro v. unfold ok. rewrite H; [reflexivity|left; reflexivity].
    - rewrite (filter_ext (fun v => ok V1 i v && forallb (fun j => negb (ok V1 j v)) siblings) (fun v => ok V2 i v && forallb (fun j => negb (ok V2 j v)) siblings)); [reflexivity|].
      intro v. f_equal; [unfold ok; rewrite H; [reflexivity|left; reflexivity]|]. apply forallb_ext_in. intros j J. unfold ok. rewrite H; [reflexivity|right; exact J].
  Qed.
  Lemma refs_comp s c j : In c (s_comps s) -> In j (comp_refs c) -> In j (refs s).
  Proof. intros H K. unfold refs. apply in_or_app. left. apply in_flat_map. exists c. split; assumption. Qed.
  Lemma refs_prop s j : In j (s_props s) -> In j (refs s).
  Proof. intros H. unfold refs. apply in_or_app. right. apply in_or_app. left. exact H. Qed.
  Lemma veval_ext V1 V2 s t : (forall j v, In j (refs s) -> V1 j v = V2 j v) -> veval V1 s t = veval V2 s t.
  Proof.
    intro H. unfold veval. destruct (values W s t) as [vs| | |]; [|reflexivity|reflexivity|reflexivity]. f_equal.
    - apply flat_map_ext_in. intros c C. unfold cevalf. destruct (object_of W (fst (t, vs))) as [o|]; [|reflexivity].
      apply ceval_ext. intros j v J. apply H, (refs_comp s c j C J).
    - apply flat_map_ext_in. intros p P. apply flat_map_ext. intro v. apply H, (refs_prop s p P).
  Qed.
  Lemma Vf_stable : forall n m i t, rank i < n -> rank i < m -> Vf n i t = Vf m i t.
  Proof.
    induction n as [|n IH]; intros m i t N M; [lia|]. destruct m as [|m]; [lia|]. cbn [Vf].
    destruct (get_shape sch i) as [s|] eqn:G; [|reflexivity]. destruct (s_deactivated s); [reflexivity|]. apply veval_ext.
    intros j v J. destruct (fine_rank _ _ _ _ F i s G j J) as [_ R]. apply IH; lia.
  Qed.
  Lemma V_step i s t : get_shape sch i = Some s -> V i t = if s_deactivated s then [] else veval V s t.
  Proof.
    intro G. unfold V at 1. cbn [Vf]. rewrite G. destruct (s_deactivated s); [reflexivity|]. apply veval_ext.
    intros j v J. destruct (fine_rank _ _ _ _ F i s G j J) as [_ R]. apply Vf_stable; lia.
  Qed.

  (** ** values and objects *)
  Lemma object_total t : exists o, object_of W t = Some o.
  Proof.
    destruct t as [n|n|n]; cbn; eauto. pose proof (fine_keys _ _ _ _ F n) as H. destruct (w_key W n); [eauto|destruct (H eq_refl)].
  Qed.
  Lemma values_spec i s t : get_shape sch i = Some s ->
    match values W s t with
    | Ok vs => NoDup vs /\ forall v, In v vs <-> value_node (w_graph W) s t v
    | Err => True
    | _ => False
    end.
  Proof.
    intro G. unfold values, value_node. destruct (s_path s) as [p|] eqn:P.
    - destruct (fine_path _ _ _ _ F i s p G P) as [S _]. unfold path_nodes.
      pose proof (path_good (w_ord W) (fine_order _ _ _ _ F) (w_graph W) p S (2 * length (w_graph W) + 2) t) as H.
      destruct (objects_for_path (w_ord W) (w_graph W) (2 * length (w_graph W) + 2) p t) as [l| | |]; cbn [good] in H.
      + destruct H as (N & H & _). split; assumption.
      + exact Logic.I.
      + exact H.
      + unfold enough in H. lia.
    - split; [repeat constructor; intros []|]. cbn. intro v. split; [intros [H|[]]; auto|auto].
  Qed.
  Lemma each_focus s o tg vs b r : In r (each s o tg vs b) -> r_focus r = o.
  Proof. unfold each. intro H. apply in_flat_map in H. destruct H as (v & _ & H). destruct (b v); [|destruct H]. destruct H as [<-|[]]. reflexivity. Qed.
  Lemma ceval_focus U s c t o vs r : In r (ceval U s c t o vs) -> r_focus r = o.
  Proof.
    assert (K : forall (b : bool) tg v, In r (if b then [mk s o tg v] else []) -> r_focus r = o).
    { intros b tg v H. destruct b; [|destruct H]. destruct H as [<-|[]]. reflexivity. }
    destruct c; cbn [ceval]; try (apply each_focus).
    - intro H. apply in_app_or in H. destruct H as [H|H].
      + destruct qmin as [m|]; [apply K in H; exact H|destruct H].
      + destruct qmax as [m|]; [apply K in H; exact H|destruct H].
    - destruct (Nat.eqb n 0); [intros []|]. intro H. apply K in H. exact H.
    - intro H. apply K in H. exact H.
    - intro H. apply K in H. exact H.
    - destruct (term_as_subject t) as [f|]; [|intros []]. intro H. apply in_app_or in H.
      destruct H as [H|H]; apply in_flat_map in H; destruct H as (v & _ & H).
      + destruct (tmem v vs); [destruct H|]. destruct H as [<-|[]]. reflexivity.
      + destruct (tmem v _); [destruct H|]. destruct H as [<-|[]]. reflexivity.
    - intro H. apply in_flat_map in H. destruct H as (w & _ & H). apply in_flat_map in H. destruct H as (v & _ & H).
      destruct (object_of W w); [|destruct H]. destruct (object_of W v); [|destruct H]. apply K in H. exact H.
    - destruct b; [|intros []]. intro H. apply in_map_iff in H. destruct H as (x & <- & _). reflexivity.
    - destruct b; [|intros []]. destruct (term_as_subject t) as [f|]; [|intros []]. intro H. apply in_flat_map in H. destruct H as (x & _ & H).
      destruct (existsb _ _); [destruct H|]. destruct H as [<-|[]]. reflexivity.
  Qed.
  Lemma V_focus : forall n i t r, rank i < n -> In r (V i t) -> object_of W t = Some (r_focus r).
  Proof.
    induction n as [|n IH]; intros i t r N H; [lia|]. destruct (get_shape sch i) as [s|] eqn:G.
    2:{ unfold V in H. cbn [Vf] in H. rewrite G in H. destruct H. }
    rewrite (V_step i s t G) in H. destruct (s_deactivated s); [destruct H|]. unfold veval in H.
    destruct (values W s t) as [vs| | |] eqn:Vs; [|destruct H|destruct H|destruct H]. apply in_app_or in H. destruct H as [H|H].
    - apply in_flat_map in H. destruct H as (c & _ & H). unfold cevalf in H. cbn in H. destruct (object_of W t) as [o|]; [|destruct H].
      f_equal. symmetry. apply (ceval_focus V s c t o vs r H).
    - apply in_flat_map in H. destruct H as (p & P & H). apply in_flat_map in H. destruct H as (v & Hv & H).
      destruct (s_path s) as [q|] eqn:Q.
      + destruct (fine_path _ _ _ _ F i s q G Q) as [_ E]. rewrite E in P. destruct P.
      + unfold values in Vs. rewrite Q in Vs. injection Vs as <-. destruct Hv as [<-|[]].
        destruct (fine_rank _ _ _ _ F i s G p (refs_prop s p P)) as [_ R]. apply (IH p t r); [lia|exact H].
  Qed.

  (** ** executions *)
  Definition correct (k : ckey) (l : list result) : Prop :=
    forall t, ask (snd k) t -> object_of W t = Some (fst k) -> Permutation l (V (snd k) t).
  Definition good (L : list result) (r : res (list result)) : Prop := exists l, r = Ok l /\ Permutation l L.
  Definition isok {A} (a : A) (r : res A) : Prop := r = Ok a.
  Notation safe := (safe correct).

  Lemma safe_rbind {A B} (p : M A) (f : A -> M B) P (Q : A -> Prop) R :
    safe P p (fun r => exists a, r = Ok a /\ Q a) -> (forall P' a, Q a -> safe P' (f a) R) -> safe P (rbind p f) R.
  Proof.
    intros H K. unfold rbind. eapply safe_bind; [exact H|]. intros P' r (a & -> & Ha). apply K, Ha.
  Qed.
  Lemma safe_rbind_ok {A B} (p : M A) (f : A -> M B) P (a : A) R :
    safe P p (isok a) -> (forall P', safe P' (f a) R) -> safe P (rbind p f) R.
  Proof.
    intros H K. apply (safe_rbind p f P (fun a' => a' = a)).
    - eapply safe_post; [|exact H]. intros r ->. exists a. split; reflexivity.
    - intros P' a' ->. apply K.
  Qed.
  Lemma safe_collect {X} (f : X -> M (list result)) (G : X -> list result) : forall xs P,
    (forall P x, In x xs -> safe P (f x) (good (G x))) -> safe P (collect f xs) (good (flat_map G xs)).
  Proof.
    induction xs as [|x xs IH]; intros P H; cbn [collect flat_map].
    - exists []. split; [reflexivity|constructor].
    - apply (safe_rbind _ _ _ (fun a => Permutation a (G x))).
      + apply H. left. reflexivity.
      + intros P' a A. apply (safe_rbind _ _ _ (fun b => Permutation b (flat_map G xs))).
        * apply IH. intros P'' y Y. apply H. right. exact Y.
        * intros P'' b B. exists (a ++ b). split; [reflexivity|]. apply Permutation_app; assumption.
  Qed.
  Lemma good_perm L L' r : Permutation L L' -> good L r -> good L' r.
  Proof. intros P (l & E & K). exists l. split; [exact E|]. eapply perm_trans; eauto. Qed.
  Lemma safe_walk {X} (f : X -> M (list result)) (G : X -> list result) xs P :
    (forall P x, In x xs -> safe P (f x) (good (G x))) -> safe P (Perm xs (collect f)) (good (flat_map G xs)).
  Proof.
    intros H l L. eapply safe_post; [|apply (safe_collect f G)].
    - intros r. apply good_perm. symmetry. apply Permutation_flat_map, L.
    - intros P' x X'. apply H, (Permutation_in _ (Permutation_sym L) X').
  Qed.

  Section Step.
    Variable i : nat.
    Variable s : shape.
    Hypothesis G : get_shape sch i = Some s.
    Variable rec : nat -> list term -> M (list result).
    Hypothesis R : forall P j fs, In j (refs s) -> NoDup fs -> (forall t, In t fs -> ask j t) -> safe P (rec j fs) (good (flat_map (V j) fs)).

    Definition entry (fv : term * list term) : Prop :=
      ask i (fst fv) /\ NoDup (snd fv) /\ forall v, In v (snd fv) -> value_node (w_graph W) s (fst fv) v.
    Lemma entry_ask fv v j : entry fv -> In v (snd fv) -> In j (refs s) -> ask j v.
    Proof. intros (A & _ & H) K J. apply (asked_ref _ _ _ i (fst fv) s j v A G J). apply H, K. Qed.

    Lemma rec_one P j v : In j (refs s) -> ask j v -> safe P (rec j [v]) (good (V j v)).
    Proof.
      intros J A. eapply safe_post; [|apply (R P j [v] J)].
      - intros r. cbn [flat_map]. rewrite app_nil_r. auto.
      - repeat constructor. intros [].
      - intros t [<-|[]]. exact A.
    Qed.
    Lemma shape_ref j : In j (refs s) -> exists s', get_shape sch j = Some s'.
    Proof. intro J. apply (fine_rank _ _ _ _ F i s G j J). Qed.
    Lemma good_no_results j v r : good (V j v) r -> exists rs, r = Ok rs /\ no_results rs = ok V j v.
    Proof. intros (l & -> & P). exists l. split; [reflexivity|]. apply no_results_perm, P. Qed.

    Lemma and_ok v : forall l P, (forall j, In j l -> In j (refs s) /\ ask j v) -> safe P (and_loop sch rec l v) (isok (forallb (fun j => ok V j v) l)).
    Proof.
      induction l as [|j l IH]; intros P H; cbn [and_loop forallb]; [reflexivity|].
      destruct (H j (or_introl eq_refl)) as [J A]. destruct (shape_ref j J) as [s' E]. rewrite E.
      eapply safe_bind; [apply (rec_one P j v J A)|]. intros P' r Hr. destruct (good_no_results j v r Hr) as (rs & -> & E').
      rewrite E'. destruct (ok V j v); cbn [andb]; [|reflexivity]. apply IH. intros k K. apply H. right. exact K.
    Qed.
    Lemma or_ok v : forall l P, (forall j, In j l -> In j (refs s) /\ ask j v) -> safe P (or_loop sch rec l v) (isok (existsb (fun j => ok V j v) l)).
    Proof.
      induction l as [|j l IH]; intros P H; cbn [or_loop existsb]; [reflexivity|].
      destruct (H j (or_introl eq_refl)) as [J A]. destruct (shape_ref j J) as [s' E]. rewrite E.
      unfold rbind. eapply safe_bind; [apply (rec_one P j v J A)|]. intros P' r Hr. destruct (good_no_results j v r Hr) as (rs & -> & E').
      rewrite E'. destruct (ok V j v); cbn [orb]; [reflexivity|]. apply IH. intros k K. apply H. right. exact K.
    Qed.
    Lemma valid_ok v j P : In j (refs s) -> ask j v -> safe P (valid sch rec j v) (isok (ok V j v)).
    Proof.
      intros J A. unfold valid. destruct (shape_ref j J) as [s' E]. rewrite E.
      eapply safe_bind; [apply (rec_one P j v J A)|]. intros P' r Hr. destruct (good_no_results j v r Hr) as (rs & -> & E').
      cbn. rewrite E'. reflexivity.
    Qed.
    Lemma xone_ok v : forall l n P, (forall j, In j l -> In j (refs s) /\ ask j v) ->
      safe P (xone_loop sch rec l v n) (isok (n + length (filter (fun j => ok V j v) l))).
    Proof.
      induction l as [|j l IH]; intros n P H; cbn [xone_loop filter]; [cbn; rewrite Nat.add_0_r; reflexivity|].
      destruct (H j (or_introl eq_refl)) as [J A]. apply (safe_rbind_ok _ _ _ (ok V j v)); [apply valid_ok; assumption|]. intro P'.
      assert (H' : forall k, In k l -> In k (refs s) /\ ask k v) by (intros k K; apply H; right; exact K).
      destruct (ok V j v); cbn [length].
      - rewrite <- Nat.add_succ_comm. apply IH, H'.
      - apply IH, H'.
    Qed.
    Lemma sibling_ok v : forall l P, (forall j, In j l -> In j (refs s) /\ ask j v) ->
      safe P (sibling_loop sch rec l v) (isok (forallb (fun j => negb (ok V j v)) l)).
    Proof.
      induction l as [|j l IH]; intros P H; cbn [sibling_loop forallb]; [reflexivity|].
      destruct (H j (or_introl eq_refl)) as [J A]. apply (safe_rbind_ok _ _ _ (ok V j v)); [apply valid_ok; assumption|]. intro P'.
      destruct (ok V j v); cbn [negb andb]; [reflexivity|]. apply IH. intros k K. apply H. right. exact K.
    Qed.
    Lemma qualified_ok j sib : forall vs n P, (forall v, In v vs -> (In j (refs s) /\ ask j v) /\ forall k, In k sib -> In k (refs s) /\ ask k v) ->
      safe P (qualified_loop sch rec j sib vs n)
        (isok (n + Z.of_nat (length (filter (fun v => ok V j v && forallb (fun k => negb (ok V k v)) sib) vs)))%Z).
    Proof.
      induction vs as [|v vs IH]; intros n P H; cbn [qualified_loop filter]; [cbn; rewrite Z.add_0_r; reflexivity|].
      destruct (H v (or_introl eq_refl)) as [[J A] K].
      assert (H' : forall v, In v vs -> (In j (refs s) /\ ask j v) /\ forall k, In k sib -> In k (refs s) /\ ask k v) by (intros k K'; apply H; right; exact K').
      apply (safe_rbind_ok _ _ _ (ok V j v && forallb (fun k => negb (ok V k v)) sib)).
      - apply (safe_rbind_ok _ _ _ (ok V j v)); [apply valid_ok; assumption|]. intro P'. destruct (ok V j v); cbn [andb]; [apply sibling_ok, K|reflexivity].
      - intro P'. destruct (ok V j v && forallb (fun k => negb (ok V k v)) sib).
        + cbn [length]. rewrite Nat2Z.inj_succ. replace (n + Z.succ (Z.of_nat (length (filter (fun v => ok V j v && forallb (fun k => negb (ok V k v)) sib) vs))))%Z
            with (n + 1 + Z.of_nat (length (filter (fun v => ok V j v && forallb (fun k => negb (ok V k v)) sib) vs)))%Z by lia. apply IH, H'.
        + apply IH, H'.
    Qed.
    Lemma node_ok v j P : In j (refs s) -> ask j v -> safe P (node_violates W rec j v) (isok (negb (ok V j v))).
    Proof.
      intros J A. unfold node_violates. destruct (object_total v) as [o E]. rewrite E. cbn [ProgLemmas.safe]. split.
      - intros l C. split.
        + intros l' C'. unfold isok. cbn. rewrite (no_results_perm l' (V j v)); [reflexivity|]. apply C'; [exact A|exact E].
        + intro N. destruct (N (or_introl eq_refl)).
      - intros _. unfold rbind. eapply safe_bind; [apply (rec_one P j v J A)|]. intros P' r Hr. destruct (good_no_results j v r Hr) as (rs & -> & E').
        cbn. rewrite E'. reflexivity.
    Qed.

    (** the loops over value nodes *)
    Lemma on_values_ok (body : term -> term -> M (list result)) tg (bad : term -> bool) vns P :
      (forall fv, In fv vns -> entry fv) ->
      (forall fv o v P, In fv vns -> In v (snd fv) -> safe P (body o v) (isok (if bad v then [mk s o tg (object_of W v)] else []))) ->
      safe P (on_values W body vns)
        (good (flat_map (fun fv => match object_of W (fst fv) with Some o => each s o tg (snd fv) bad | None => [] end) vns)).
    Proof.
      intros E H. unfold on_values. apply safe_walk. intros P' fv I. destruct (object_total (fst fv)) as [o O]. rewrite O.
      unfold each. apply safe_walk. intros P'' v Hv. eapply safe_post; [|apply (H fv o v P'' I Hv)]. intros r ->. eexists. split; [reflexivity|apply Permutation_refl].
    Qed.
    Lemma when_ok tg o v b P : safe P (when W s tg o v b) (isok (if b then [mk s o tg (object_of W v)] else [])).
    Proof. reflexivity. Qed.
    Lemma apply_focus_ok tg ev vns P :
      (forall l l', Permutation l l' -> ev l = ev l') ->
      safe P (apply_focus W s tg ev vns)
        (good (flat_map (fun fv => match object_of W (fst fv) with Some o => if ev (snd fv) then [mk s o tg None] else [] | None => [] end) vns)).
    Proof.
      intro H. unfold apply_focus. apply safe_walk. intros P' fv I. destruct (object_of W (fst fv)) as [o|]; eexists; (split; [reflexivity|apply Permutation_refl]).
    Qed.
    Lemma apply_values_ok tg ev (bad : term -> term -> bool) vns P :
      (forall fv v, In fv vns -> In v (snd fv) -> ev (fst fv) v = Ok (bad (fst fv) v)) ->
      safe P (apply_values W s tg ev vns)
        (good (flat_map (fun fv => match object_of W (fst fv) with Some o => each s o tg (snd fv) (bad (fst fv)) | None => [] end) vns)).
    Proof.
      intro H. unfold apply_values. apply safe_walk. intros P' fv I. destruct (object_total (fst fv)) as [o O]. rewrite O.
      apply safe_walk. intros P'' v Hv. rewrite (H fv v I Hv). destruct (bad (fst fv) v); eexists; (split; [reflexivity|apply Permutation_refl]).
    Qed.
    Lemma disjoint_eval p f v : ~ literal f -> disjoint_ev W p f v = Ok (disjoint_b p f v).
    Proof.
      intro N. unfold disjoint_ev, disjoint_b. destruct f as [n|n|n]; cbn [term_as_subject]; [| |destruct (N Logic.I)].
      - induction (objects_of W (TIri n) p) as [|w os IH]; [reflexivity|]. cbn [existsb]. destruct (object_total v) as [a A]. destruct (object_total w) as [b B].
        rewrite A, B. rewrite A in IH. destruct (term_eqb a b); [reflexivity|exact IH].
      - induction (objects_of W (TBnode n) p) as [|w os IH]; [reflexivity|]. cbn [existsb]. destruct (object_total v) as [a A]. destruct (object_total w) as [b B].
        rewrite A, B. rewrite A in IH. destruct (term_eqb a b); [reflexivity|exact IH].
    Qed.

    Lemma rinsert_new r l : (forall r', In r' l -> r_focus r' = r_focus r -> r_tag r' = r_tag r -> False) -> rinsert r l = l ++ [r].
    Proof.
      intro H. unfold rinsert. destruct (existsb _ l) eqn:E; [|reflexivity]. exfalso. apply existsb_exists in E. destruct E as (r' & I & E).
      apply andb_true_iff in E. destruct E as [E1 E2]. apply (H r' I); [apply term_eqb_eq, E1|].
      destruct (r_tag r'), (r_tag r); try discriminate; reflexivity.
    Qed.
    Lemma qualified_results_app o qmin qmax n l : (forall r, In r l -> r_focus r <> o) ->
      qualified_results s o qmin qmax n l = l ++
        match qmin with Some m => if (n <? m)%Z then [mk s o TQualifiedMin None] else [] | None => [] end ++
        match qmax with Some m => if (m <? n)%Z then [mk s o TQualifiedMax None] else [] | None => [] end.
    Proof.
      intro H. unfold qualified_results.
      set (a := match qmin with Some m => if (n <? m)%Z then [mk s o TQualifiedMin None] else [] | None => [] end).
      assert (E : match qmin with Some m => if (n <? m)%Z then rinsert (mk s o TQualifiedMin None) l else l | None => l end = l ++ a).
      { unfold a. destruct qmin as [m|]; [|rewrite app_nil_r; reflexivity]. destruct (n <? m)%Z; [|rewrite app_nil_r; reflexivity].
        apply rinsert_new. intros r' I E _. apply (H r' I E). }
      rewrite E. destruct qmax as [m|]; [|rewrite !app_nil_r; reflexivity]. destruct (m <? n)%Z; [|rewrite !app_nil_r; reflexivity].
      rewrite app_assoc. apply rinsert_new. intros r' I E1 E2. apply in_app_or in I. destruct I as [I|I]; [apply (H r' I E1)|].
      unfold a in I. destruct qmin as [m'|]; [|destruct I]. destruct (n <? m')%Z; [|destruct I]. destruct I as [<-|[]]. discriminate.
    Qed.
    Lemma qualified_all_ok j sib qmin qmax : forall vns l P,
      (forall fv, In fv vns -> entry fv) -> NoDup (map fst vns) ->
      (forall fv r, In fv vns -> In r l -> object_of W (fst fv) <> Some (r_focus r)) ->
      In j (refs s) -> (forall k, In k sib -> In k (refs s)) ->
      safe P (qualified_all W sch rec s j sib qmin qmax vns l)
        (good (l ++ flat_map (cevalf V s (CQualified j sib qmin qmax)) vns)).
    Proof.
      induction vns as [|[f vs] vns IH]; intros l P E N D J S; cbn [qualified_all flat_map].
      - exists l. split; [reflexivity|]. rewrite app_nil_r. apply Permutation_refl.
      - destruct (object_total f) as [o O]. rewrite O.
        set (n := Z.of_nat (length (filter (fun v => ok V j v && forallb (fun k => negb (ok V k v)) sib) vs))).
        apply (safe_rbind _ _ _ (fun x => x = n)).
        + intros vs' Pv. eapply safe_post; [|apply (qualified_ok j sib vs' 0%Z)].
          * intros r ->. exists n. split; [|reflexivity]. f_equal. unfold n. rewrite Z.add_0_l. f_equal. apply Permutation_length, filter_perm. symmetry. exact Pv.
          * intros v Hv. pose proof (Permutation_in _ (Permutation_sym Pv) Hv) as Hv'. pose proof (E (f, vs) (or_introl eq_refl)) as Ef.
            split; [split; [exact J|apply (entry_ask (f, vs) v j Ef Hv' J)]|]. intros k K. split; [apply S, K|]. apply (entry_ask (f, vs) v k Ef Hv' (S k K)).
        + intros P' x ->. rewrite qualified_results_app.
          2:{ intros r I X. apply (D (f, vs) r (or_introl eq_refl) I). cbn. rewrite O, X. reflexivity. }
          assert (Q : cevalf V s (CQualified j sib qmin qmax) (f, vs) =
            match qmin with Some m => if (n <? m)%Z then [mk s o TQualifiedMin None] else [] | None => [] end ++
            match qmax with Some m => if (m <? n)%Z then [mk s o TQualifiedMax None] else [] | None => [] end)
            by (unfold cevalf; cbn [fst snd]; rewrite O; reflexivity).
          rewrite <- Q. rewrite app_assoc. apply IH.
          * intros fv I. apply E. right. exact I.
          * inversion N; assumption.
          * intros fv r I K X. apply in_app_or in K. destruct K as [K|K]; [apply (D fv r (or_intror I) K X)|].
            unfold cevalf in K. cbn [fst snd] in K. rewrite O in K. apply ceval_focus in K. rewrite K in X.
            inversion N as [|a b N1 N2]; subst. apply N1. apply in_map_iff. exists fv. split; [|exact I].
            apply (fine_inj _ _ _ _ F i (fst fv) f); [apply (E fv (or_intror I))|apply (E (f, vs) (or_introl eq_refl))|congruence].
          * exact J.
          * exact S.
    Qed.

    Lemma langs_perm vs vs' : Permutation vs vs' -> Permutation (langs W vs) (langs W vs').
    Proof.
      induction 1; cbn; [constructor|destruct (lang_of W x); auto|destruct (lang_of W x), (lang_of W y); auto using perm_swap|eapply perm_trans; eauto].
    Qed.

    Lemma component_ok c vns P : In c (s_comps s) -> (forall fv, In fv vns -> entry fv) -> NoDup (map fst vns) ->
      safe P (component W sch rec s c vns) (good (flat_map (cevalf V s c) vns)).
    Proof.
      intros C E N.
      assert (A : forall fv v j, In fv vns -> In v (snd fv) -> In j (comp_refs c) -> In j (refs s) /\ ask j v).
      { intros fv v j I Hv J. pose proof (refs_comp s c j C J) as J'. split; [exact J'|]. apply (entry_ask fv v j (E fv I) Hv J'). }
      assert (PF : forall (f g : list result) r, f = g -> good f r -> good g r) by (intros f g r ->; auto).
      destruct c as [l|l|l|j|j|j sib qmin qmax|n|n|w|l|p|p|b p|b|b|k]; cbn [component comp_refs] in *.
      - eapply safe_post; [intro r; apply PF; reflexivity|]. eapply (on_values_ok _ TAnd); [exact E|]. intros fv o v P' I Hv.
        eapply safe_rbind_ok; [apply and_ok; intros j J; apply (A fv v j I Hv J)|]. intro P''. apply when_ok.
      - eapply safe_post; [intro r; apply PF; reflexivity|]. eapply (on_values_ok _ TOr); [exact E|]. intros fv o v P' I Hv.
        eapply safe_rbind_ok; [apply or_ok; intros j J; apply (A fv v j I Hv J)|]. intro P''. apply when_ok.
      - eapply safe_post; [intro r; apply PF; reflexivity|]. eapply (on_values_ok _ TXone); [exact E|]. intros fv o v P' I Hv.
        eapply safe_rbind_ok; [apply xone_ok; intros j J; apply (A fv v j I Hv J)|]. intro P''. apply when_ok.
      - eapply safe_post; [intro r; apply PF; reflexivity|]. eapply (on_values_ok _ TNot); [exact E|]. intros fv o v P' I Hv.
        destruct (A fv v j I Hv (or_introl eq_refl)) as [J K].
        eapply safe_rbind_ok; [apply (valid_ok v j P' J K)|]. intro P''. apply when_ok.
      - destruct (shape_ref j (refs_comp s (CNode j) j C (or_introl eq_refl))) as [s' E']. rewrite E'.
        eapply safe_post; [intro r; apply PF; reflexivity|]. eapply (on_values_ok _ TNode); [exact E|]. intros fv o v P' I Hv.
        destruct (A fv v j I Hv (or_introl eq_refl)) as [J K].
        eapply safe_rbind_ok; [apply (node_ok v j P' J K)|]. intro P''. apply when_ok.
      - intros vns' Pv. apply (safe_rbind _ _ _ (fun l => Permutation l (flat_map (cevalf V s (CQualified j sib qmin qmax)) vns))).
        + eapply safe_post; [|apply (qualified_all_ok j sib qmin qmax vns' [])].
          * intros r (l & -> & L). exists l. split; [reflexivity|]. rewrite L. cbn [app]. apply Permutation_flat_map. symmetry. exact Pv.
          * intros fv I. apply E, (Permutation_in _ (Permutation_sym Pv) I).
          * apply (Permutation_NoDup (Permutation_map fst Pv) N).
          * intros fv r I [].
          * apply (refs_comp s (CQualified j sib qmin qmax) j C). left. reflexivity.
          * intros k K. apply (refs_comp s (CQualified j sib qmin qmax) k C). right. exact K.
        + intros P' l L l' L'. exists l'. split; [reflexivity|]. rewrite <- L. symmetry. exact L'.
      - destruct (Nat.eqb n 0) eqn:Z.
        + exists []. split; [reflexivity|]. replace (flat_map _ vns) with (@nil result); [constructor|].
          symmetry. clear - Z. induction vns as [|fv vns IH]; [reflexivity|]. cbn [flat_map]. rewrite IH. unfold cevalf. cbn [ceval]. rewrite Z.
          destruct (object_of W (fst fv)); reflexivity.
        + eapply safe_post; [|apply apply_focus_ok].
          * intro r. apply PF. apply flat_map_ext. intro fv. unfold cevalf. cbn [ceval]. rewrite Z. reflexivity.
          * intros l l' L. rewrite (Permutation_length L). reflexivity.
      - eapply safe_post; [|apply apply_focus_ok].
        + intro r. apply PF. apply flat_map_ext. intro fv. unfold cevalf. cbn [ceval]. reflexivity.
        + intros l l' L. rewrite (Permutation_length L). reflexivity.
      - eapply safe_post; [|apply apply_focus_ok].
        + intro r. apply PF. apply flat_map_ext. intro fv. unfold cevalf. cbn [ceval]. reflexivity.
        + intros l l' L. f_equal. destruct (tmem w l) eqn:X, (tmem w l') eqn:Y; try reflexivity; exfalso.
          * apply tmem_spec in X. apply (Permutation_in _ L) in X. apply tmem_spec in X. congruence.
          * apply tmem_spec in Y. apply (Permutation_in _ (Permutation_sym L)) in Y. apply tmem_spec in Y. congruence.
      - eapply safe_post; [|apply (apply_values_ok TIn _ (fun _ v => negb (tmem v l)))]; [|reflexivity].
        intro r. apply PF. reflexivity.
      - unfold equals_all. apply safe_walk. intros P' fv I. unfold cevalf. cbn [ceval].
        destruct (object_total (fst fv)) as [o O]. rewrite O.
        destruct (fst fv) as [n|n|n] eqn:Ef; cbn [term_as_subject].
        + cbn in O. injection O as <-. cbn [object_of ProgLemmas.safe]. intros pvs Pp vs Pv. eexists. split; [reflexivity|].
          apply Permutation_app; apply Permutation_flat_map; symmetry; assumption.
        + cbn in O. injection O as <-. cbn [object_of ProgLemmas.safe]. intros pvs Pp vs Pv. eexists. split; [reflexivity|].
          apply Permutation_app; apply Permutation_flat_map; symmetry; assumption.
        + exists []. split; [reflexivity|constructor].
      - eapply safe_post; [|apply (apply_values_ok TDisjoint _ (disjoint_b p))].
        + intro r. apply PF. reflexivity.
        + intros fv v I Hv. apply disjoint_eval. apply (fine_subject _ _ _ _ F i s (fst fv)); [apply (E fv I)|exact G|right; exists p; exact C].
      - unfold less_all. apply safe_walk. intros P' fv I. unfold cevalf. cbn [ceval].
        destruct (object_total (fst fv)) as [o O]. rewrite O.
        assert (NL : ~ literal (fst fv)) by (apply (fine_subject _ _ _ _ F i s (fst fv)); [apply (E fv I)|exact G|left; exists b, p; exact C]).
        assert (Z : term_as_subject (fst fv) = Some (fst fv)) by (destruct (fst fv); cbn in *; tauto).
        rewrite Z, O. apply safe_collect. intros P'' w _. destruct (object_total w) as [n1 O1]. rewrite O1.
        apply safe_walk. intros P3 v Hv. destruct (object_total v) as [n2 O2]. rewrite O2. eexists. split; [reflexivity|apply Permutation_refl].
      - unfold unique_lang_all. destruct b.
        + apply safe_walk. intros P' fv I. unfold cevalf. cbn [ceval]. destruct (object_total (fst fv)) as [o O]. rewrite O.
          intros ls L. eexists. split; [reflexivity|]. symmetry. apply Permutation_map, L.
        + exists []. split; [reflexivity|]. replace (flat_map _ vns) with (@nil result); [constructor|].
          symmetry. clear. induction vns as [|fv vns IH]; [reflexivity|]. cbn [flat_map]. rewrite IH. unfold cevalf. cbn [ceval]. destruct (object_of W (fst fv)); reflexivity.
      - unfold closed_all. destruct b.
        + apply safe_walk. intros P' fv I. unfold cevalf. cbn [ceval]. destruct (object_total (fst fv)) as [o O]. rewrite O.
          destruct (fst fv) as [n|n|n] eqn:Ef; cbn [term_as_subject].
          * rewrite O. eexists. split; [reflexivity|apply Permutation_refl].
          * rewrite O. eexists. split; [reflexivity|apply Permutation_refl].
          * exists []. split; [reflexivity|constructor].
        + exists []. split; [reflexivity|]. replace (flat_map _ vns) with (@nil result); [constructor|].
          symmetry. clear. induction vns as [|fv vns IH]; [reflexivity|]. cbn [flat_map]. rewrite IH. unfold cevalf. cbn [ceval]. destruct (object_of W (fst fv)); reflexivity.
      - eapply safe_post; [|apply (apply_values_ok (TTest k) _ (fun _ v => w_test W k v))]; [|reflexivity].
        intro r. apply PF. reflexivity.
    Qed.
  End Step.

  (** ** one validation *)
  Lemma value_nodes_ok i s : get_shape sch i = Some s -> forall fs, NoDup fs -> (forall t, In t fs -> ask i t) ->
    exists vns, value_nodes W s fs = Ok vns /\ (forall fv, In fv vns -> entry i s fv) /\ (forall fv, In fv vns -> In (fst fv) fs) /\ NoDup (map fst vns) /\
      forall H : term * list term -> list result,
        flat_map H vns = flat_map (fun t => match values W s t with Ok vs => H (t, vs) | _ => [] end) fs.
  Proof.
    intros G. induction fs as [|f fs IH]; intros N A.
    - exists []. split; [reflexivity|]. split; [intros fv []|]. split; [intros fv []|]. split; [constructor|reflexivity].
    - inversion N as [|a b N1 N2]; subst. destruct (IH N2 (fun t T => A t (or_intror T))) as (vns & E & En & I & D & H). cbn [value_nodes].
      pose proof (values_spec i s f G) as S. destruct (values W s f) as [vs| | |] eqn:Vs; [| |destruct S|destruct S].
      + exists ((f, vs) :: vns). rewrite E. split; [reflexivity|]. split; [|split; [|split]].
        * intros fv [<-|K]; [|apply En, K]. split; [apply A; left; reflexivity|]. split; [apply S|]. intros v Hv. apply S, Hv.
        * intros fv [<-|K]; [left; reflexivity|right; apply I, K].
        * cbn [map]. constructor; [|exact D]. intro K. apply in_map_iff in K. destruct K as (fv & X & K). apply N1. cbn in X. rewrite <- X. apply I, K.
        * intro K. cbn [flat_map]. rewrite Vs, H. reflexivity.
      + exists vns. rewrite E. split; [reflexivity|]. split; [exact En|]. split; [intros fv K; right; apply I, K|]. split; [exact D|].
        intro K. cbn [flat_map]. rewrite Vs, H. reflexivity.
  Qed.

  Lemma lookups_ok i : forall fs P, (forall t, In t fs -> ask i t) ->
    safe P (lookups W i fs) (fun cu => exists A, Permutation fs (A ++ snd cu) /\ Permutation (fst cu) (flat_map (V i) A)).
  Proof.
    induction fs as [|f fs IH]; intros P A; cbn [lookups].
    - exists []. split; constructor.
    - assert (A' : forall t, In t fs -> ask i t) by (intros t T; apply A; right; exact T).
      destruct (object_total f) as [o O]. rewrite O. cbn [ProgLemmas.safe]. split.
      + intros l C. eapply safe_bind; [apply IH, A'|]. intros P' cu (B & B1 & B2). exists (f :: B). cbn [fst snd app flat_map]. split.
        * apply perm_skip, B1.
        * apply Permutation_app; [|exact B2]. apply C; [apply A; left; reflexivity|exact O].
      + intros _. eapply safe_bind; [apply IH, A'|]. intros P' cu (B & B1 & B2). exists B. cbn [fst snd]. split; [|exact B2].
        rewrite B1. apply Permutation_middle.
  Qed.

  Lemma bucket i t U new : NoDup U -> (forall u, In u U -> ask i u) -> In t U -> Permutation new (flat_map (V i) U) ->
    forall o, object_of W t = Some o -> Permutation (filter (fun r => term_eqb (r_focus r) o) new) (V i t).
  Proof.
    intros N A T P o O. rewrite (filter_perm _ _ _ P). clear P new.
    assert (E : forall u, In u U -> u <> t -> filter (fun r => term_eqb (r_focus r) o) (V i u) = []).
    { intros u Hu D. destruct (filter _ _) as [|r l] eqn:X; [reflexivity|]. exfalso. assert (K : In r (filter (fun r => term_eqb (r_focus r) o) (V i u))) by (rewrite X; left; reflexivity).
      apply filter_In in K. destruct K as [K1 K2]. apply term_eqb_eq in K2. apply (V_focus (S (rank i)) i u r) in K1; [|lia].
      apply D. apply (fine_inj _ _ _ _ F i u t (A u Hu) (A t T)). congruence. }
    assert (S : filter (fun r => term_eqb (r_focus r) o) (V i t) = V i t).
    { assert (K : forall r, In r (V i t) -> term_eqb (r_focus r) o = true).
      { intros r Hr. apply term_eqb_eq. apply (V_focus (S (rank i)) i t r) in Hr; [|lia]. congruence. }
      induction (V i t) as [|r l IH]; [reflexivity|]. cbn [filter]. rewrite (K r (or_introl eq_refl)). f_equal. apply IH. intros r' R'. apply K. right. exact R'. }
    induction U as [|u U IH]; [destruct T|]. cbn [flat_map]. rewrite filter_app. inversion N as [|a b N1 N2]; subst.
    destruct (term_eq_dec u t) as [->|D].
    - rewrite S. replace (filter (fun r => term_eqb (r_focus r) o) (flat_map (V i) U)) with (@nil result); [rewrite app_nil_r; apply Permutation_refl|].
      assert (E' : forall u, In u U -> filter (fun r => term_eqb (r_focus r) o) (V i u) = []).
      { intros u Hu. apply E; [right; exact Hu|]. intros ->. apply N1, Hu. }
      clear - E'. induction U as [|u U IH]; [reflexivity|]. cbn [flat_map]. rewrite filter_app, (E' u (or_introl eq_refl)). cbn [app]. apply IH. intros v Hv. apply E'. right. exact Hv.
    - rewrite (E u (or_introl eq_refl) D). cbn [app]. apply IH; [exact N2|intros v Hv; apply A; right; exact Hv| |intros v Hv; apply E; right; exact Hv].
      destruct T as [T|T]; [destruct (D T)|exact T].
  Qed.
  Lemma objects_in o : forall U, In o (objects W U) -> exists t, In t U /\ object_of W t = Some o.
  Proof.
    induction U as [|u U IH]; cbn [objects]; [intros []|]. destruct (object_of W u) as [o'|] eqn:E.
    - intros [<-|H]; [exists u; split; [left; reflexivity|exact E]|]. destruct (IH H) as (t & T & X). exists t. split; [right; exact T|exact X].
    - intros H. destruct (IH H) as (t & T & X). exists t. split; [right; exact T|exact X].
  Qed.
  Lemma record_ok i U new : NoDup U -> (forall u, In u U -> ask i u) -> Permutation new (flat_map (V i) U) ->
    forall os P, (forall o, In o os -> In o (objects W U)) -> safe P (record i new os) (fun _ => True).
  Proof.
    intros N A Pm. induction os as [|o os IH]; intros P H; cbn [record ProgLemmas.safe]; [exact Logic.I|]. split.
    - intros t T O. cbn [fst snd] in *. destruct (objects_in o U (H o (or_introl eq_refl))) as (u & Hu & Ou).
      assert (X : t = u) by (apply (fine_inj _ _ _ _ F i t u T (A u Hu)); congruence). subst u.
      apply (bucket i t U new N A Hu Pm o O).
    - apply IH. intros o' O'. apply H. right. exact O'.
  Qed.

  Lemma V_split i s U vns : get_shape sch i = Some s -> s_deactivated s = false ->
    (forall H : term * list term -> list result, flat_map H vns = flat_map (fun t => match values W s t with Ok vs => H (t, vs) | _ => [] end) U) ->
    Permutation (flat_map (fun c => flat_map (cevalf V s c) vns) (s_comps s) ++ flat_map (fun p => flat_map (fun fv => flat_map (V p) (snd fv)) vns) (s_props s))
      (flat_map (V i) U).
  Proof.
    intros G D H.
    rewrite (flat_map_swap (fun c fv => cevalf V s c fv) (s_comps s) vns), (flat_map_swap (fun p fv => flat_map (V p) (snd fv)) (s_props s) vns).
    rewrite <- (flat_map_app_perm (fun fv => flat_map (fun c => cevalf V s c fv) (s_comps s)) (fun fv => flat_map (fun p => flat_map (V p) (snd fv)) (s_props s)) vns).
    rewrite H. apply Permutation_flat_map_ext. intros t _. rewrite (V_step i s t G), D. unfold veval. destruct (values W s t); reflexivity.
  Qed.

  Theorem validate_ok : forall fuel src i fs P, rank i < fuel -> (exists s, get_shape sch i = Some s) -> NoDup fs -> (forall t, In t fs -> ask i t) ->
    safe P (validate W sch fuel src i fs) (good (flat_map (V i) fs)).
  Proof.
    induction fuel as [|fuel IH]; intros src i fs P L [s G] N A; [lia|]. cbn [validate]. rewrite G. destruct (s_deactivated s) eqn:D.
    - exists []. split; [reflexivity|]. replace (flat_map (V i) fs) with (@nil result); [constructor|]. symmetry. clear - F G D.
      induction fs as [|f fs IH]; [reflexivity|]. cbn [flat_map]. rewrite IH, (V_step i s f G), D. reflexivity.
    - intros fs1 P1. eapply safe_bind; [apply lookups_ok; intros t T; apply A, (Permutation_in _ (Permutation_sym P1) T)|].
      intros P' cu (B & B1 & B2). destruct cu as [cached unc]. cbn [fst snd] in *.
      assert (Nu : NoDup unc).
      { assert (X : NoDup (B ++ unc)) by (apply (Permutation_NoDup (perm_trans P1 B1) N)). clear - X. induction B as [|b B IH]; [exact X|]. inversion X; auto. }
      assert (Au : forall t, In t unc -> ask i t).
      { intros t T. apply A. apply (Permutation_in _ (Permutation_sym (perm_trans P1 B1))). apply in_or_app. right. exact T. }
      assert (Pf : forall new, Permutation new (flat_map (V i) unc) -> Permutation (cached ++ new) (flat_map (V i) fs)).
      { intros new Hn. rewrite (Permutation_flat_map (V i) (perm_trans P1 B1)), flat_map_app. apply Permutation_app; assumption. }
      destruct unc as [|u unc].
      + exists cached. split; [reflexivity|]. rewrite <- (app_nil_r cached). apply Pf. constructor.
      + remember (u :: unc) as U eqn:EU. clear EU u unc.
        intros U' PU. pose proof (Permutation_NoDup PU Nu) as NU. assert (AU : forall t, In t U' -> ask i t) by (intros t T; apply Au, (Permutation_in _ (Permutation_sym PU) T)).
        destruct (value_nodes_ok i s G U' NU AU) as (vns & E & En & I & Dn & H). rewrite E.
        assert (R : forall P j fs, In j (refs s) -> NoDup fs -> (forall t, In t fs -> ask j t) ->
          safe P (validate W sch fuel (Some (s_id s)) j fs) (good (flat_map (V j) fs))).
        { intros Q j fs' J N' A'. destruct (fine_rank _ _ _ _ F i s G j J) as [X Y]. apply IH; [lia|exact X|exact N'|exact A']. }
        apply (safe_rbind_ok _ _ _ vns); [reflexivity|]. intro P2.
        apply (safe_rbind _ _ _ (fun r => Permutation r (flat_map (fun c => flat_map (cevalf V s c) vns) (s_comps s)))).
        { apply safe_collect. intros P3 c C. apply (component_ok i s G _ R c vns P3 C En Dn). }
        intros P3 r1 H1.
        apply (safe_rbind _ _ _ (fun r => Permutation r (flat_map (fun p => flat_map (fun fv => flat_map (V p) (snd fv)) vns) (s_props s)))).
        { apply safe_collect. intros P4 p Hp. pose proof (refs_prop s p Hp) as J. destruct (fine_rank _ _ _ _ F i s G p J) as [[s' Gp] _]. rewrite Gp.
          apply safe_walk. intros P5 fv K. destruct (En fv K) as (K1 & K2 & K3). apply R; [exact J|exact K2|]. intros v Hv. apply (entry_ask i s G fv v p (En fv K) Hv J). }
        intros P4 r2 H2. apply (safe_rbind_ok _ _ _ []).
        { unfold reifiers_all. rewrite (fine_reifier _ _ _ _ F i s G). reflexivity. }
        intro P5. rewrite app_nil_r.
        assert (Hn : Permutation (r1 ++ r2) (flat_map (V i) U')) by (rewrite H1, H2; apply (V_split i s U' vns G D H)).
        intros os Po. eapply safe_bind; [apply (record_ok i U' (r1 ++ r2) NU AU Hn)|].
        * intros o O. apply tset_in. apply (Permutation_in _ (Permutation_sym Po) O).
        * intros P6 _ _. exists (cached ++ r1 ++ r2). split; [reflexivity|]. apply Pf. rewrite Hn. apply Permutation_flat_map. symmetry. exact PU.
  Qed.
End Exec.

Lemma ckey_eqb_eq a b : ckey_eqb a b = true -> a = b.
Proof.
  unfold ckey_eqb. intro H. apply andb_true_iff in H. destruct H as [H1 H2]. apply term_eqb_eq in H1. apply Nat.eqb_eq in H2. destruct a, b; cbn in *; congruence.
Qed.
Lemma ckey_eqb_refl a : ckey_eqb a a = true.
Proof. unfold ckey_eqb. rewrite Nat.eqb_refl. rewrite (proj2 (term_eqb_eq _ _) eq_refl). reflexivity. Qed.
