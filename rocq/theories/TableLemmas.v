(** Lemmas about neighbourhood matching. *)

Require Import List Arith Bool Lia Permutation.
Import ListNotations.
From Verif Require Import RbeModel RbeSpec RbeDeriv RbeInterval RbeFeasModel RbeFeas RbeFinal
  PendingModel PendingSpec PendingLemmas TableModel TableSpec.

Section TableLemmas.
  Variable eval : nat -> nat -> bool.

  Lemma mcond_ind' (P : mcond -> Prop) :
    (forall k, P (CSingle k)) -> (forall r, P (CRef r)) ->
    (forall cs, Forall P cs -> P (CAnd cs)) -> forall c, P c.
  Proof.
    intros H1 H2 H3. fix IH 1. intros [k|r|cs]; [apply H1|apply H2|apply H3].
    induction cs as [|c cs IHcs]; constructor; [apply IH|exact IHcs].
  Qed.

  Definition cm_step v (acc : option pending) (c : mcond) : option pending :=
    match acc with
    | None => None
    | Some current => match cond_matches eval c v with
                      | None => None
                      | Some new => Some (p_merge current new)
                      end
    end.

  Lemma cm_none v cs : fold_left (cm_step v) cs None = None.
  Proof. induction cs; simpl; auto. Qed.

  Lemma empty_pair v r : ~ pair p_empty v r.
  Proof. intros (ks & []). Qed.
  Lemma empty_triple v r k : ~ triple p_empty v r k.
  Proof. intros []. Qed.

  Lemma cond_matches_spec c : forall v,
    match cond_matches eval c v with
    | Some p => satisfies eval c v /\ built p /\ (forall v' r, pair p v' r <-> needs c v v' r) /\
                (forall v' r k, ~ triple p v' r k)
    | None => ~ satisfies eval c v
    end.
  Proof.
    induction c as [[kind|]|r|cs IH] using mcond_ind'; intro v; simpl.
    - destruct (eval kind v) eqn:E; [|congruence].
      split; [reflexivity|]. split; [constructor|]. split; [|apply empty_triple].
      intros v' r. split; [apply empty_pair|tauto].
    - split; [exact I|]. split; [constructor|]. split; [|apply empty_triple].
      intros v' r. split; [apply empty_pair|tauto].
    - split; [exact I|]. split; [repeat constructor|].
      destruct (insert_pairs p_empty v r built_empty) as [H T]. unfold p_from_pair. split.
      + intros v' r'. rewrite H. split; [intros [K|K]; [destruct (empty_pair _ _ K)|exact K]|auto].
      + intros v' r' k. rewrite T. apply empty_triple.
    - change (match fold_left (cm_step v) cs (Some p_empty) with
              | Some p => fold_right (fun c P => satisfies eval c v /\ P) True cs /\ built p /\
                          (forall v' r, pair p v' r <-> fold_right (fun c P => needs c v v' r \/ P) False cs) /\
                          (forall v' r k, ~ triple p v' r k)
              | None => ~ fold_right (fun c P => satisfies eval c v /\ P) True cs
              end).
      assert (G : forall p0, built p0 -> (forall v' r k, ~ triple p0 v' r k) ->
              match fold_left (cm_step v) cs (Some p0) with
              | Some p => fold_right (fun c P => satisfies eval c v /\ P) True cs /\ built p /\
                          (forall v' r, pair p v' r <-> pair p0 v' r \/ fold_right (fun c P => needs c v v' r \/ P) False cs) /\
                          (forall v' r k, ~ triple p v' r k)
              | None => ~ fold_right (fun c P => satisfies eval c v /\ P) True cs
              end).
      { induction IH as [|c cs Hc Hcs IHcs]; intros p0 B T0; simpl.
        - split; [exact I|]. split; [exact B|]. split; [|exact T0]. intros; tauto.
        - specialize (Hc v). destruct (cond_matches eval c v) as [new|] eqn:E.
          + destruct Hc as (S & Bn & N & T). destruct (merge_triples p0 new B Bn) as [M MT].
            assert (T1 : forall v' r k, ~ triple (p_merge p0 new) v' r k).
            { intros v' r k. rewrite MT. intros [K|K]; [exact (T0 _ _ _ K)|exact (T _ _ _ K)]. }
            specialize (IHcs (p_merge p0 new) (built_merge _ _ B Bn) T1).
            destruct (fold_left (cm_step v) cs (Some (p_merge p0 new))) as [p|].
            * destruct IHcs as (S' & B' & N' & T'). split; [auto|]. split; [exact B'|]. split; [|exact T'].
              intros v' r. rewrite N', M, N. tauto.
            * tauto.
          + rewrite cm_none. tauto. }
      specialize (G p_empty built_empty empty_triple). destruct (fold_left (cm_step v) cs (Some p_empty)) as [p|]; [|exact G].
      destruct G as (S & B & N & T). split; [exact S|]. split; [exact B|]. split; [|exact T]. intros v' r. rewrite N.
      split; [intros [K|K]; [destruct (empty_pair _ _ K)|exact K]|auto].
  Qed.

  (** ** tables *)

  Lemma components_spec t : tbuilt t ->
    length (t_ckey t) = length (t_cond t) /\
    (forall k c, In c (components_of t k) <-> nth_error (t_ckey t) c = Some k) /\
    (forall k, NoDup (components_of t k)).
  Proof.
    induction 1 as [|k0 cd t B (L & M & N)|r t B IH].
    - split; [reflexivity|]. split; [|intro; constructor]. intros k c. unfold components_of. simpl.
      split; [intros []|]. destruct c; discriminate.
    - simpl. split; [rewrite !app_length; simpl; lia|].
      assert (F : forall k, components_of (snd (add_component k0 cd t)) k =
                            if k =? k0 then set_insert (components_of t k0) (length (t_cond t)) else components_of t k).
      { intro k. unfold components_of. simpl. rewrite get_upd. destruct (Nat.eqb_spec k k0) as [->|Nk]; [|reflexivity].
        simpl. destruct (ix_get k0 (t_keys t)); reflexivity. }
      split.
      + intros k c. rewrite F. destruct (Nat.lt_trichotomy c (length (t_ckey t))) as [Hc|[Hc|Hc]].
        * rewrite nth_error_app1 by exact Hc. destruct (Nat.eqb_spec k k0) as [->|Nk]; [|apply M].
          rewrite set_insert_In, M. split; [intros [H|H]; [exact H|lia]|auto].
        * rewrite nth_error_app2 by lia. replace (c - length (t_ckey t)) with 0 by lia. simpl.
          destruct (Nat.eqb_spec k k0) as [->|Nk].
          -- rewrite set_insert_In. split; [reflexivity|]. right. lia.
          -- rewrite M. split; [|congruence]. intro H. apply nth_error_Some_lt in H || idtac.
             exfalso. assert (nth_error (t_ckey t) c = None) by (apply nth_error_None; lia). congruence.
        * rewrite nth_error_app2 by lia.
          assert (E : nth_error [k0] (c - length (t_ckey t)) = None) by (apply nth_error_None; simpl; lia).
          rewrite E. assert (E2 : nth_error (t_ckey t) c = None) by (apply nth_error_None; lia).
          destruct (Nat.eqb_spec k k0) as [->|Nk].
          -- rewrite set_insert_In, M, E2. split; [intros [H|H]; [discriminate|lia]|discriminate].
          -- rewrite M, E2. tauto.
      + intro k. rewrite F. destruct (k =? k0); [apply set_insert_NoDup|]; apply N.
    - exact IH.
  Qed.

  Lemma component_of t c k : tbuilt t -> In c (components_of t k) -> exists cd, component t c k cd.
  Proof.
    intros B H. destruct (components_spec t B) as (L & M & _). apply M in H.
    destruct (nth_error (t_cond t) c) as [cd|] eqn:E; [exists cd; split; assumption|].
    apply nth_error_None in E. assert (nth_error (t_ckey t) c = None) by (apply nth_error_None; lia). congruence.
  Qed.

  Lemma try_cond_spec t c k cd v : component t c k cd ->
    try_cond eval t c v = cond_matches eval cd v.
  Proof. intros [_ E]. unfold try_cond, cond_of. rewrite E. reflexivity. Qed.

  Lemma fits_spec t kv c : tbuilt t ->
    (fits eval t kv c <-> In c (components_of t (fst kv)) /\ exists p, try_cond eval t c (snd kv) = Some p).
  Proof.
    intro B. split.
    - intros (cd & C & S). split.
      + destruct (components_spec t B) as (_ & M & _). apply M, C.
      + rewrite (try_cond_spec t c (fst kv) cd _ C). pose proof (cond_matches_spec cd (snd kv)) as X.
        destruct (cond_matches eval cd (snd kv)); [eauto|contradiction].
    - intros (I & p & E). destruct (component_of t c (fst kv) B I) as (cd & C). exists cd. split; [exact C|].
      rewrite (try_cond_spec t c (fst kv) cd _ C) in E. pose proof (cond_matches_spec cd (snd kv)) as X.
      rewrite E in X. apply X.
  Qed.

  Lemma cart_spec {A} (ls : list (list A)) : forall cs, In cs (cart ls) <-> Forall2 (fun l c => In c l) ls cs.
  Proof.
    induction ls as [|l ls IH]; intro cs; simpl.
    - split; [intros [<-|[]]; constructor|]. intro H. inversion H. auto.
    - rewrite in_flat_map. split.
      + intros (x & Hx & H). apply in_map_iff in H. destruct H as (cs' & <- & H). constructor; [exact Hx|].
        apply IH. exact H.
      + intro H. inversion H; subst. exists y. split; [assumption|]. apply in_map_iff. exists l'. split; [reflexivity|].
        apply IH. assumption.
  Qed.

  Lemma fits_candidate t kv c : tbuilt t -> fits eval t kv c -> In c (candidates_of eval t kv).
  Proof.
    intros B F. apply fits_spec in F; [|exact B]. destruct F as (I & p & E). unfold candidates_of.
    destruct (1 <? length (components_of t (fst kv))); [|exact I]. apply filter_In. split; [exact I|].
    rewrite E. reflexivity.
  Qed.

  Lemma candidate_component t kv c : In c (candidates_of eval t kv) -> In c (components_of t (fst kv)).
  Proof.
    unfold candidates_of. destruct (1 <? length (components_of t (fst kv))); [|auto]. intro H. apply filter_In in H. apply H.
  Qed.

  Lemma assignment_cart t vs cs : tbuilt t -> assignment eval t vs cs -> In cs (cart (map (candidates_of eval t) vs)).
  Proof.
    intros B H. apply cart_spec. induction H; simpl; constructor; auto. apply fits_candidate; assumption.
  Qed.

  (** checking the conditions of a combination *)
  Lemma check_conds_spec t : tbuilt t -> forall vs cs p0,
    Forall2 (fun kv c => In c (components_of t (fst kv))) vs cs -> built p0 ->
    match check_conds eval t p0 vs cs with
    | Some p => assignment eval t vs cs /\ built p /\
        (forall v' r k, triple p v' r k <-> triple p0 v' r k \/ leaves t vs cs v' r k) /\
        (forall v' r, pair p v' r <-> pair p0 v' r \/ exists k, leaves t vs cs v' r k)
    | None => ~ assignment eval t vs cs
    end.
  Proof.
    intros B vs. unfold leaves. induction vs as [|[k v] vs IH]; intros cs p0 H Bp; inversion H as [|? c ? cs' H2 H4]; subst; simpl.
    - split; [constructor|]. split; [exact Bp|]. split.
      + intros. split; [auto|]. intros [K|(v & c & cd & [] & _)]; exact K.
      + intros. split; [auto|]. intros [K|(k & v & c & cd & [] & _)]; exact K.
    - destruct (component_of t c k B H2) as (cd & C).
      pose proof (cond_matches_spec cd v) as X. rewrite <- (try_cond_spec t c k cd v C) in X.
      destruct (try_cond eval t c v) as [new|] eqn:E.
      + destruct X as (S & Bn & N & NT).
        assert (Ba : built (p_annotate k new)) by (constructor; exact Bn).
        specialize (IH cs' (p_merge p0 (p_annotate k new)) H4 (built_merge _ _ Bp Ba)).
        destruct (check_conds eval t (p_merge p0 (p_annotate k new)) vs cs') as [p|].
        * destruct IH as (A & Bq & T & P).
          destruct (merge_triples p0 _ Bp Ba) as [MP MT]. destruct (annotate_triples new k Bn) as [AP AT].
          split; [constructor; [exists cd; auto|exact A]|]. split; [exact Bq|].
          assert (U : forall cd', component t c k cd' -> cd' = cd).
          { intros cd' [_ C']. destruct C as [_ C]. congruence. }
          split.
          -- intros v' r k'. rewrite T, MT, AT, N. split.
             ++ intros [[K|[K|[K ->]]]|(v1 & c1 & cd1 & I1 & C1 & N1)].
                ** auto.
                ** destruct (NT _ _ _ K).
                ** right. exists v, c, cd. auto.
                ** right. exists v1, c1, cd1. auto.
             ++ intros [K|(v1 & c1 & cd1 & [I1|I1] & C1 & N1)]; [auto| |].
                ** injection I1 as <- <- <-. rewrite (U _ C1) in N1. auto.
                ** right. exists v1, c1, cd1. auto.
          -- intros v' r. rewrite P, MP, AP, N. split.
             ++ intros [[K|K]|(k1 & v1 & c1 & cd1 & I1 & C1 & N1)]; [auto| |].
                ** right. exists k, v, c, cd. auto.
                ** right. exists k1, v1, c1, cd1. auto.
             ++ intros [K|(k1 & v1 & c1 & cd1 & [I1|I1] & C1 & N1)]; [auto| |].
                ** injection I1 as <- <- <-. rewrite (U _ C1) in N1. auto.
                ** right. exists k1, v1, c1, cd1. auto.
        * intro K. apply IH. inversion K; assumption.
      + intro K. inversion K as [|? ? ? ? (cd' & [_ C2] & S) K2]; subst. destruct C as [_ C1].
        rewrite C1 in C2. injection C2 as <-. contradiction.
  Qed.

  Lemma combination_spec t vs cs it : tbuilt t -> In cs (cart (map (candidates_of eval t) vs)) ->
    In it (combination eval t vs cs) ->
    match it with
    | IOk p => assignment eval t vs cs /\ match_bag_interval (t_rbe t) cs (t_open t) = None /\ built p /\
        (forall v' r k, triple p v' r k <-> leaves t vs cs v' r k) /\
        (forall v' r, pair p v' r <-> exists k, leaves t vs cs v' r k)
    | IErr => ~ assignment eval t vs cs
    end.
  Proof.
    intros B Hc Hi. unfold combination in Hi.
    assert (F : Forall2 (fun kv c => In c (components_of t (fst kv))) vs cs).
    { apply cart_spec in Hc. clear -Hc. revert cs Hc. induction vs as [|kv vs IH]; intros cs H; inversion H; subst; constructor.
      - apply candidate_component. assumption.
      - apply IH. assumption. }
    pose proof (check_conds_spec t B vs cs p_empty F built_empty) as X.
    destruct (check_conds eval t p_empty vs cs) as [p|].
    - destruct (match_bag_interval (t_rbe t) cs (t_open t)); [destruct Hi|]. destruct Hi as [<-|[]].
      destruct X as (A & Bp & T & P). split; [exact A|]. split; [reflexivity|]. split; [exact Bp|]. split.
      + intros. rewrite T. split; [intros [K|K]; [destruct (empty_triple _ _ _ K)|exact K]|auto].
      + intros. rewrite P. split; [intros [K|K]; [destruct (empty_pair _ _ K)|exact K]|auto].
    - destruct Hi as [<-|[]]. exact X.
  Qed.

  Lemma check_conds_assignment t vs cs p0 : tbuilt t -> assignment eval t vs cs -> built p0 ->
    exists p, check_conds eval t p0 vs cs = Some p.
  Proof.
    intros B A Bp.
    assert (F : Forall2 (fun kv c => In c (components_of t (fst kv))) vs cs).
    { clear -B A. induction A; constructor; auto. apply fits_spec in H; [apply H|exact B]. }
    pose proof (check_conds_spec t B vs cs p0 F Bp) as X.
    destruct (check_conds eval t p0 vs cs); [eauto|contradiction].
  Qed.

  Definition nothing_found t vs := list_sum (map (@length nat) (map (candidates_of eval t) vs)) = 0.

  Lemma nothing_found_spec t vs : nothing_found t vs <-> forall kv, In kv vs -> candidates_of eval t kv = [].
  Proof.
    unfold nothing_found. induction vs as [|kv vs IH]; simpl; [split; [intros _ ? []|auto]|].
    split.
    - intros H kv' [<-|K].
      + destruct (candidates_of eval t kv); [reflexivity|simpl in H; lia].
      + apply IH; [lia|exact K].
    - intro H. rewrite (H kv) by auto. simpl. apply IH. auto.
  Qed.

  Lemma nothing_found_assignment t vs cs : tbuilt t -> vs <> [] -> nothing_found t vs -> ~ assignment eval t vs cs.
  Proof.
    intros B NE H A. destruct vs as [|kv vs]; [contradiction|]. inversion A; subst.
    apply fits_candidate in H2; [|exact B]. rewrite nothing_found_spec in H. rewrite (H kv) in H2; [destruct H2|left; reflexivity].
  Qed.

  Lemma matches_product t vs : vs <> [] -> ~ nothing_found t vs ->
    matches eval t vs = flat_map (combination eval t vs) (cart (map (candidates_of eval t) vs)).
  Proof.
    intros NE NF. unfold matches. destruct vs as [|kv vs]; [contradiction|].
    destruct (Nat.eqb_spec (list_sum (map (@length nat) (map (candidates_of eval t) (kv :: vs)))) 0); [contradiction|reflexivity].
  Qed.

  (** an item answers an assignment, and every accepted assignment is answered *)
  Theorem matches_complete t vs cs : tbuilt t -> vs <> [] ->
    assignment eval t vs cs -> match_bag_interval (t_rbe t) cs (t_open t) = None ->
    exists p, In (IOk p) (matches eval t vs).
  Proof.
    intros B NE A M. rewrite matches_product; [|exact NE|].
    - destruct (check_conds_assignment t vs cs p_empty B A built_empty) as (p & E). exists p.
      apply in_flat_map. exists cs. split; [apply assignment_cart; assumption|].
      unfold combination. rewrite E, M. left. reflexivity.
    - intro NF. exact (nothing_found_assignment t vs cs B NE NF A).
  Qed.

  Theorem matches_sound t vs p : tbuilt t -> vs <> [] -> ~ nothing_found t vs ->
    In (IOk p) (matches eval t vs) ->
    exists cs, assignment eval t vs cs /\ match_bag_interval (t_rbe t) cs (t_open t) = None /\ built p /\
        (forall v' r k, triple p v' r k <-> leaves t vs cs v' r k) /\
        (forall v' r, pair p v' r <-> exists k, leaves t vs cs v' r k).
  Proof.
    intros B NE NF H. rewrite matches_product in H by assumption. apply in_flat_map in H.
    destruct H as (cs & Hc & H). exists cs. exact (combination_spec t vs cs (IOk p) B Hc H).
  Qed.

  (** an error item means that no assignment exists at all *)
  Theorem matches_error t vs : tbuilt t -> vs <> [] -> ~ nothing_found t vs ->
    In IErr (matches eval t vs) -> forall cs, ~ assignment eval t vs cs.
  Proof.
    intros B NE NF H cs A. rewrite matches_product in H by assumption. apply in_flat_map in H.
    destruct H as (cs0 & Hc & H). unfold combination in H.
    assert (E : exists p, check_conds eval t p_empty vs cs0 = Some p).
    { apply check_conds_assignment; [exact B| |constructor]. apply cart_spec in Hc. clear -B A Hc.
      revert cs A cs0 Hc. induction vs as [|kv vs IH]; intros cs A cs0 Hc; inversion A as [|? c ? cs1 A1 A2]; subst.
      { inversion Hc; subst; constructor. }
      simpl in Hc. inversion Hc as [|? c0 ? cs2 H1 H2]; subst. constructor.
      - unfold candidates_of in H1. destruct (1 <? length (components_of t (fst kv))) eqn:L.
        + apply fits_spec; [exact B|]. apply filter_In in H1. destruct H1 as [H1 K]. split; [exact H1|].
          destruct (try_cond eval t c0 (snd kv)); [eauto|discriminate].
        + pose proof A1 as A1'. apply fits_spec in A1'; [|exact B]. destruct A1' as [I1 _].
          apply Nat.ltb_ge in L. destruct (components_of t (fst kv)) as [|x [|x1 r]]; simpl in L; [destruct I1| |lia].
          destruct I1 as [<-|[]]. destruct H1 as [<-|[]]. exact A1.
      - eapply IH; eauto. }
    destruct E as (p & E). rewrite E in H. destruct (match_bag_interval (t_rbe t) cs0 (t_open t)); [destruct H|].
    destruct H as [H|[]]. discriminate.
  Qed.

  (** ** nullability *)

  Lemma cond_nullable_spec e : wf e -> (cond_nullable e = true <-> lang e bzero).
  Proof.
    unfold wf. induction e using rbe_ind'; intro W; simpl.
    - split; [discriminate|tauto].
    - split; [intros _ a; reflexivity|reflexivity].
    - unfold card_nullable. rewrite Nat.eqb_eq. unfold in_card. change (bzero v) with 0. split.
      + intro E. split; [reflexivity|]. split; [lia|]. destruct (cmax c); simpl; [exact I|lia].
      + intros (_ & H & _). lia.
    - apply everywhere_And in W. destruct W as [_ W].
      induction H as [|v vs Hv Hvs IH]; simpl; [split; [intros _ a; reflexivity|reflexivity]|].
      inversion W; subst. rewrite andb_true_iff, (Hv H1), (IH H2). split.
      + intros [A1 A2]. exists bzero, bzero. split; [intro a; reflexivity|]. auto.
      + intros (b1 & b2 & E & A1 & A2).
        assert (Z1 : beq b1 bzero) by (intro a; specialize (E a); unfold bsum, bzero in *; lia).
        assert (Z2 : beq b2 bzero) by (intro a; specialize (E a); unfold bsum, bzero in *; lia).
        split; [exact (lang_ext v _ _ Z1 A1)|]. exact (lang_ext (And vs) _ _ Z2 A2).
    - apply everywhere_Or in W. destruct W as [_ W].
      induction H as [|v vs Hv Hvs IH]; simpl; [split; [discriminate|tauto]|].
      inversion W; subst. rewrite orb_true_iff, (Hv H1), (IH H2). tauto.
    - split; [|reflexivity]. intros _. exists 0. intro a; reflexivity.
    - destruct W as [_ W]. rewrite (IHe W). split.
      + intro A. exists 1. split; [lia|]. apply (pow_1 _ _ (lang_ext e)). exact A.
      + intros (k & K & P). destruct k as [|k]; [lia|]. destruct P as (b1 & b2 & E & A1 & _).
        assert (Z1 : beq b1 bzero) by (intro a; specialize (E a); unfold bsum, bzero in *; lia).
        exact (lang_ext e _ _ Z1 A1).
    - destruct W as [W0 W]. simpl in W0. destruct (Nat.eqb_spec (cmin c) 0) as [E0|N0].
      + split; [|reflexivity]. intros _. exists 0. split; [|intro a; reflexivity]. split; [lia|].
        destruct (cmax c); simpl; [exact I|lia].
      + rewrite (IHe W). split.
        * intro A. exists (cmin c). split; [split; [apply le_n|exact W0]|]. clear -A.
          induction (cmin c) as [|k IH]; [intro a; reflexivity|]. exists bzero, bzero. split; [intro a; reflexivity|]. auto.
        * intros (k & [K _] & P). destruct k as [|k]; [lia|]. destruct P as (b1 & b2 & E & A1 & _).
          assert (Z1 : beq b1 bzero) by (intro a; specialize (E a); unfold bsum, bzero in *; lia).
          exact (lang_ext e _ _ Z1 A1).
  Qed.

  (** ** upper bounds *)

  Lemma hi_count t vs c : tbuilt t -> forall cs, assignment eval t vs cs -> bag_of cs c <= hi_of eval t vs c.
  Proof.
    intros B. induction vs as [|kv vs IH]; intros cs A; inversion A as [|? x ? cs' F A']; subst; [simpl; lia|].
    specialize (IH cs' A'). unfold bag_of, hi_of in *. cbn [map list_sum fold_right count_occ].
    destruct (Nat.eq_dec x c) as [->|N].
    - apply fits_spec in F; [|exact B]. destruct F as (I1 & p & E).
      assert (K : 1 <= length (filter (fun c' => (c' =? c) && is_some (try_cond eval t c' (snd kv))) (components_of t (fst kv)))).
      { assert (J : In c (filter (fun c' => (c' =? c) && is_some (try_cond eval t c' (snd kv))) (components_of t (fst kv)))).
        { apply filter_In. split; [exact I1|]. rewrite Nat.eqb_refl, E. reflexivity. }
        destruct (filter _ (components_of t (fst kv))); [destruct J|simpl; lia]. }
      unfold list_sum in *. lia.
    - unfold list_sum in *. lia.
  Qed.

  Lemma list_sum_perm l l' : Permutation l l' -> list_sum l = list_sum l'.
  Proof. induction 1; simpl in *; lia. Qed.

  Lemma hi_sub t vs' rest vs c : Permutation (vs' ++ rest) vs -> hi_of eval t vs' c <= hi_of eval t vs c.
  Proof.
    intro P. unfold hi_of at 2. rewrite <- (list_sum_perm _ _ (Permutation_map _ P)), map_app, list_sum_app.
    unfold hi_of. lia.
  Qed.

  (** ** the theorems *)

  Lemma usable_interval t e cs : table_for t e -> (match_bag_interval (t_rbe t) cs (t_open t) = None <-> lang e (bag_of cs)).
  Proof.
    intros (_ & -> & -> & W & Z & F & S). rewrite matchers_agree by assumption. apply match_bag_deriv_closed; assumption.
  Qed.

  Lemma table_decides t e vs : table_for t e -> vs <> [] ->
    (exists kv, In kv vs /\ exists c, fits eval t kv c) ->
    ((exists p, In (IOk p) (matches eval t vs)) <-> exists cs, assignment eval t vs cs /\ lang e (bag_of cs)).
  Proof.
    intros U NE (kv & I1 & c & Fc). pose proof U as (B & _).
    assert (NF : ~ nothing_found t vs).
    { intro K. rewrite nothing_found_spec in K. apply fits_candidate in Fc; [|exact B]. rewrite (K kv I1) in Fc. destruct Fc. }
    split.
    - intros (p & H). destruct (matches_sound t vs p B NE NF H) as (cs & A & M & _). exists cs. split; [exact A|].
      apply (usable_interval t e cs U). exact M.
    - intros (cs & A & L). apply (matches_complete t vs cs B NE A). apply (usable_interval t e cs U). exact L.
  Qed.

  Lemma table_leaves t e vs p : table_for t e -> (exists kv, In kv vs /\ exists c, fits eval t kv c) ->
    In (IOk p) (matches eval t vs) ->
    exists cs, assignment eval t vs cs /\ lang e (bag_of cs) /\
      (forall v r k, triple p v r k <-> leaves t vs cs v r k) /\
      (forall v r, pair p v r <-> exists k, leaves t vs cs v r k).
  Proof.
    intros U (kv & I1 & c & Fc) H. pose proof U as (B & _).
    assert (NF : ~ nothing_found t vs).
    { intro K. rewrite nothing_found_spec in K. apply fits_candidate in Fc; [|exact B]. rewrite (K kv I1) in Fc. destruct Fc. }
    assert (NE : vs <> []) by (intros ->; destruct I1).
    destruct (matches_sound t vs p B NE NF H) as (cs & A & M & Bp & T & P). exists cs. split; [exact A|].
    split; [|auto]. apply (usable_interval t e cs U). exact M.
  Qed.

  Lemma table_every t e vs cs : table_for t e -> vs <> [] -> assignment eval t vs cs -> lang e (bag_of cs) ->
    exists p, In (IOk p) (matches eval t vs) /\
      (forall v r k, triple p v r k <-> leaves t vs cs v r k) /\
      (forall v r, pair p v r <-> exists k, leaves t vs cs v r k).
  Proof.
    intros U NE A L. pose proof U as (B & _).
    assert (NF : ~ nothing_found t vs) by (intro K; exact (nothing_found_assignment t vs cs B NE K A)).
    destruct (check_conds_assignment t vs cs p_empty B A built_empty) as (p & E). exists p.
    assert (Hc : In cs (cart (map (candidates_of eval t) vs))) by (apply assignment_cart; assumption).
    assert (Hi : In (IOk p) (combination eval t vs cs)).
    { unfold combination. rewrite E. rewrite (proj2 (usable_interval t e cs U) L). left. reflexivity. }
    pose proof (combination_spec t vs cs (IOk p) B Hc Hi) as (_ & _ & _ & T & P).
    split; [|auto]. rewrite matches_product by assumption. apply in_flat_map. eauto.
  Qed.

  Lemma table_error t e vs : table_for t e -> (exists kv, In kv vs /\ exists c, fits eval t kv c) ->
    In IErr (matches eval t vs) -> (forall cs, ~ assignment eval t vs cs) /\ forall p, ~ In (IOk p) (matches eval t vs).
  Proof.
    intros U (kv & I1 & c & Fc) H. pose proof U as (B & _).
    assert (NF : ~ nothing_found t vs).
    { intro K. rewrite nothing_found_spec in K. apply fits_candidate in Fc; [|exact B]. rewrite (K kv I1) in Fc. destruct Fc. }
    assert (NE : vs <> []) by (intros ->; destruct I1).
    pose proof (matches_error t vs B NE NF H) as N. split; [exact N|].
    intros p K. destruct (matches_sound t vs p B NE NF K) as (cs & A & _). exact (N cs A).
  Qed.

  Lemma table_empty t e : table_for t e ->
    (matches eval t [] = [IOk p_empty] <-> lang e bzero) /\ (matches eval t [] = [IErr] <-> ~ lang e bzero).
  Proof.
    intros (B & R & _ & W & _ & NF & _). unfold matches, empty_items. simpl orb. cbv iota.
    rewrite R, rs_from_rbe by assumption. pose proof (cond_nullable_spec e W) as N.
    destruct (cond_nullable e); split; split; try discriminate; try reflexivity.
    - intros _. apply N. reflexivity.
    - intros K. destruct (K (proj1 N eq_refl)).
    - intros K. apply N in K. discriminate.
    - intros _ K. apply N in K. discriminate.
  Qed.

  Lemma table_infeasible t e vs : table_for t e -> feasible_neighs eval t vs = false ->
    forall vs' rest cs, Permutation (vs' ++ rest) vs -> assignment eval t vs' cs -> ~ lang e (bag_of cs).
  Proof.
    intros (B & R & _ & W & _ & NF & _) F vs' rest cs P A. unfold feasible_neighs in F. rewrite R, rs_from_rbe in F by assumption.
    apply (feasible_refutes (fun _ => 0) (hi_of eval t vs)); [auto|exact F|].
    intro a. split; [lia|]. etransitivity; [apply hi_count; eassumption|]. eapply hi_sub; eassumption.
  Qed.
End TableLemmas.
