From Coq Require Import List Arith Bool Permutation Lia.
Import ListNotations.
From Verif Require Import GraphModel GraphLemmas ProveModel ProveSpec.

Section Correct.
  Variable dep : nat -> list nat.
  Variable missing is_abstract : nat -> bool.
  Variable desc : nat -> list nat.
  Variable check : nat -> (nat -> bool) -> bool.
  Variable ord : nat -> list nat -> list nat.
  Variable negated : nat -> nat -> Prop.
  Variable str : nat -> nat.
  Variable all : list nat.
  Hypothesis H_ord : orders ord.
  Hypothesis H_closed : closed dep desc all.
  Hypothesis H_mono : monotone_but dep check negated.
  Hypothesis H_str : stratifies dep desc all negated str.

  Notation justified := (justified is_abstract desc check).
  Notation needs := (needs dep desc).

  Lemma justified_mono k T T' : In k all ->
    (forall j, In j all -> needs k j -> T j = T' j \/ str j = str k /\ (T j = true -> T' j = true)) ->
    justified T k -> justified T' k.
  Proof.
    intros K E [[A C]|(d & D & Td)].
    - left. split; [exact A|]. apply (H_mono k T T'); [|exact C]. intros j J.
      destruct (E j (H_closed k j K (or_introl J)) (or_introl J)) as [X|[X Y]]; [left; exact X|].
      right. split; [|exact Y]. intro N. apply (proj2 H_str k j K J) in N. lia.
    - right. exists d. split; [exact D|].
      destruct (E d (H_closed k d K (or_intror D)) (or_intror D)) as [X|[X Y]]; [rewrite <- X; exact Td|exact (Y Td)].
  Qed.

  Variable V : nat -> bool.
  Hypothesis H_V : stratified_typing is_abstract desc check all str V.

  Lemma V_justified k : In k all -> V k = true -> justified V k.
  Proof.
    intros K E. apply H_V in E; [|exact K]. destruct E as (T & Tk & B & J).
    apply (justified_mono k T V K); [|exact (J k K eq_refl Tk)].
    intros j Ja N. pose proof (proj1 H_str k j K N) as L. destruct (Nat.eq_dec (str j) (str k)) as [Q|Q].
    - right. split; [exact Q|]. intro Tj. apply H_V; [exact Ja|]. exists T. split; [exact Tj|]. rewrite Q. split; assumption.
    - left. apply B; [exact Ja|lia].
  Qed.

  Lemma justified_V k : In k all -> justified V k -> V k = true.
  Proof.
    intros K E. apply H_V; [exact K|]. set (T := fun i => V i || Nat.eqb i k).
    assert (M : forall j, In j all -> str j = str k -> justified V j -> justified T j).
    { intros j Ja Q X. apply (justified_mono j V T Ja); [|exact X]. intros i _ N. unfold T.
      destruct (Nat.eqb i k) eqn:Z.
      - apply Nat.eqb_eq in Z. subst i. right. split; [symmetry; exact Q|]. intros ->. reflexivity.
      - left. rewrite orb_false_r. reflexivity. }
    exists T. split; [unfold T; rewrite Nat.eqb_refl, orb_true_r; reflexivity|]. split.
    - intros i _ L. unfold T. destruct (Nat.eqb i k) eqn:Z; [apply Nat.eqb_eq in Z; subst i; lia|apply orb_false_r].
    - intros j Ja Q Tj. apply (M j Ja Q). unfold T in Tj. apply orb_true_iff in Tj. destruct Tj as [Vj|Z].
      + exact (V_justified j Ja Vj).
      + apply Nat.eqb_eq in Z. subst j. exact E.
  Qed.

  (** [k] is in the greatest typing relative to the hypotheses *)
  Definition supported (hyp : list nat) (k : nat) : Prop :=
    exists T, T k = true /\ (forall i, In i all -> str i <> str k -> T i = V i) /\
              forall j, In j all -> str j = str k -> T j = true -> In j hyp \/ justified T j.

  Lemma supported_V hyp k : In k all -> (forall h, In h hyp -> str h <> str k) -> supported hyp k -> V k = true.
  Proof.
    intros K L (T & Tk & B & J). apply H_V; [exact K|]. exists T. split; [exact Tk|]. split.
    - intros i I Q. apply B; [exact I|lia].
    - intros j I Q Tj. destruct (J j I Q Tj) as [X|X]; [destruct (L j X Q)|exact X].
  Qed.

  (** one typing supports several pairs of a stratum *)
  Lemma supported_join s hyp l :
    (forall j, In j l -> In j all /\ str j = s /\ supported hyp j) ->
    exists T, (forall j, In j l -> T j = true) /\ (forall i, In i all -> str i <> s -> T i = V i) /\
              (forall i, In i all -> str i = s -> V i = true -> T i = true) /\
              forall j, In j all -> str j = s -> T j = true -> In j hyp \/ justified T j.
  Proof.
    induction l as [|x l IH]; intros S.
    - exists V. split; [intros j []|]. split; [reflexivity|]. split; [auto|].
      intros j Ja _ Vj. right. exact (V_justified j Ja Vj).
    - destruct IH as (T & A & B & L & J); [intros j Hj; apply S; right; exact Hj|].
      destruct (S x (or_introl eq_refl)) as (Xa & Xs & (T' & A' & B' & J')).
      exists (fun i => T i || T' i). split; [|split; [|split]].
      + intros j [<-|Hj]; [rewrite A', orb_true_r; reflexivity|rewrite (A j Hj); reflexivity].
      + intros i Ia N. rewrite (B i Ia N), (B' i Ia) by congruence. apply orb_diag.
      + intros i Ia Is Vi. rewrite (L i Ia Is Vi). reflexivity.
      + intros j Ja Js Tj. apply orb_true_iff in Tj. destruct Tj as [Tj|Tj].
        * destruct (J j Ja Js Tj) as [X|X]; [left; exact X|right]. revert X. apply (justified_mono j _ _ Ja).
          intros i Ia N. destruct (Nat.eq_dec (str i) (str j)) as [Q|Q].
          -- right. split; [exact Q|]. intros ->. reflexivity.
          -- left. rewrite (B i Ia), (B' i Ia) by congruence. symmetry. apply orb_diag.
        * destruct (J' j Ja (eq_trans Js (eq_sym Xs)) Tj) as [X|X]; [left; exact X|right]. revert X. apply (justified_mono j _ _ Ja).
          intros i Ia N. destruct (Nat.eq_dec (str i) (str j)) as [Q|Q].
          -- right. split; [exact Q|]. intros ->. apply orb_true_r.
          -- left. rewrite (B i Ia), (B' i Ia) by congruence. symmetry. apply orb_diag.
  Qed.

  Definition sound (s : state) : Prop := forall k b, lookup k (cache s) = Some b -> In k all -> b = V k.

  Definition good (hyp : list nat) (k : nat) (s : state) (o : outcome) (s' : state) : Prop :=
    sound s' /\
    match o with
    | Verdict b => exists m, touched s' = touched s || m /\ (m = false -> b = V k) /\
                             (V k = true -> b = true) /\ (b = true -> supported hyp k)
    | _ => True
    end.

  Lemma prove_each_good hyp rec l : 
    (forall j s o s', In j l -> sound s -> rec j s = (o, s') -> good hyp j s o s') ->
    forall passed s r s', sound s -> prove_each rec l passed s = (r, s') ->
    sound s' /\
    match r with
    | inr out => exists m, touched s' = touched s || m /\
        (forall c, In c out -> In c passed \/ In c l /\ supported hyp c) /\
        (forall c, In c passed -> In c out) /\
        (forall c, In c l -> V c = true -> In c out) /\
        (m = false -> forall c, In c out -> In c passed \/ V c = true)
    | inl _ => True
    end.
  Proof.
    induction l as [|k l IH]; intros R passed s r s' S E.
    - injection E as <- <-. split; [exact S|]. exists false. rewrite orb_false_r. split; [reflexivity|].
      split; [auto|]. split; [auto|]. split; [intros c []|auto].
    - cbn [prove_each] in E. destruct (rec k s) as [o s1] eqn:Ek.
      destruct (R k s o s1 (or_introl eq_refl) S Ek) as [S1 G].
      assert (R' : forall j s o s', In j l -> sound s -> rec j s = (o, s') -> good hyp j s o s')
        by (intros j t o' t' Hj; apply R; right; exact Hj).
      destruct o as [| |b].
      + injection E as <- <-. split; [exact S1|exact I].
      + injection E as <- <-. split; [exact S1|exact I].
      + destruct G as (m & Tm & Ex & Lo & Up). destruct b.
        * destruct (IH R' (k :: passed) s1 r s' S1 E) as [S' X]. split; [exact S'|]. destruct r as [o|out]; [exact I|].
          destruct X as (m' & Tm' & A & B & C & D). exists (m || m'). split; [rewrite Tm', Tm; symmetry; apply orb_assoc|].
          split; [|split; [|split]].
          -- intros c Hc. destruct (A c Hc) as [[<-|Hp]|[Hl Hs]].
             ++ right. split; [left; reflexivity|exact (Up eq_refl)].
             ++ left. exact Hp.
             ++ right. split; [right; exact Hl|exact Hs].
          -- intros c Hc. apply B. right. exact Hc.
          -- intros c [<-|Hc] Vc; [apply B; left; reflexivity|exact (C c Hc Vc)].
          -- intros Z c Hc. apply orb_false_iff in Z. destruct Z as [Z1 Z2]. destruct (D Z2 c Hc) as [[<-|Hp]|Vc].
             ++ right. symmetry. exact (Ex Z1).
             ++ left. exact Hp.
             ++ right. exact Vc.
        * destruct (IH R' passed s1 r s' S1 E) as [S' X]. split; [exact S'|]. destruct r as [o|out]; [exact I|].
          destruct X as (m' & Tm' & A & B & C & D). exists (m || m'). split; [rewrite Tm', Tm; symmetry; apply orb_assoc|].
          split; [|split; [|split]].
          -- intros c Hc. destruct (A c Hc) as [Hp|[Hl Hs]]; [left; exact Hp|right; split; [right; exact Hl|exact Hs]].
          -- exact B.
          -- intros c [<-|Hc] Vc; [discriminate (Lo Vc)|exact (C c Hc Vc)].
          -- intros Z c Hc. apply orb_false_iff in Z. exact (D (proj2 Z) c Hc).
  Qed.

  Lemma first_proved_good hyp rec l :
    (forall j s o s', In j l -> sound s -> rec j s = (o, s') -> good hyp j s o s') ->
    forall s o s', sound s -> first_proved rec l s = (o, s') ->
    sound s' /\
    match o with
    | Verdict b => exists m, touched s' = touched s || m /\
        (m = false -> b = existsb V l) /\
        (existsb V l = true -> b = true) /\ (b = true -> exists d, In d l /\ supported hyp d /\ (m = false -> V d = true))
    | _ => True
    end.
  Proof.
    induction l as [|k l IH]; intros R s o s' S E.
    - injection E as <- <-. split; [exact S|]. exists false. rewrite orb_false_r. split; [reflexivity|].
      split; [reflexivity|]. split; [discriminate|discriminate].
    - cbn [first_proved] in E. destruct (rec k s) as [o1 s1] eqn:Ek.
      destruct (R k s o1 s1 (or_introl eq_refl) S Ek) as [S1 G].
      assert (R' : forall j s o s', In j l -> sound s -> rec j s = (o, s') -> good hyp j s o s')
        by (intros j t o' t' Hj; apply R; right; exact Hj).
      destruct o1 as [| |b].
      + injection E as <- <-. split; [exact S1|exact I].
      + injection E as <- <-. split; [exact S1|exact I].
      + destruct G as (m & Tm & Ex & Lo & Up). destruct b.
        * injection E as <- <-. split; [exact S1|]. exists m. split; [exact Tm|]. split; [|split; [reflexivity|]].
          -- intro Z. cbn [existsb]. rewrite <- (Ex Z). reflexivity.
          -- intros _. exists k. split; [left; reflexivity|]. split; [exact (Up eq_refl)|]. intro Z. symmetry. exact (Ex Z).
        * destruct (IH R' s1 o s' S1 E) as [S' X]. split; [exact S'|]. destruct o as [| |b]; [exact I|exact I|].
          assert (Vk : V k = false) by (destruct (V k); [discriminate (Lo eq_refl)|reflexivity]).
          destruct X as (m' & Tm' & A & B & C). exists (m || m'). split; [rewrite Tm', Tm; symmetry; apply orb_assoc|].
          cbn [existsb]. rewrite Vk. cbn [orb]. split; [|split].
          -- intro Z. apply orb_false_iff in Z. exact (A (proj2 Z)).
          -- exact B.
          -- intro Eb. destruct (C Eb) as (d & D1 & D2 & D3). exists d. split; [right; exact D1|]. split; [exact D2|].
             intro Z. apply orb_false_iff in Z. exact (D3 (proj2 Z)).
  Qed.

  Hypothesis H_local : local dep check.

  Lemma prove_good fuel : forall k hyp s o s', In k all ->
    (forall h, In h hyp -> str k <= str h) -> sound s ->
    prove dep missing is_abstract desc check ord fuel k hyp s = (o, s') -> good hyp k s o s'.
  Proof.
    induction fuel as [|f IH]; intros k hyp s o s' K HS S E.
    { injection E as <- <-. split; [exact S|exact I]. }
    cbn [prove] in E. destruct (lookup k (cache s)) as [b|] eqn:Ec.
    { injection E as <- <-. split; [exact S|]. pose proof (S k b Ec K) as ->. exists false. rewrite orb_false_r.
      split; [reflexivity|]. split; [reflexivity|]. split; [auto|]. intro Vk.
      exists V. split; [exact Vk|]. split; [reflexivity|]. intros j Ja _ Vj. right. exact (V_justified j Ja Vj). }
    destruct (missing k); [injection E as <- <-; split; [exact S|exact I]|].
    set (hyp' := k :: hyp) in *. set (cands := nodup Nat.eq_dec (dep k)) in *.
    set (s1 := mkState (cache s) (existsb (fun c => mem c hyp') cands) (Datatypes.S (tick s))) in *.
    set (cleaned := ord (tick s) (filter (fun c => negb (mem c hyp')) cands)) in *.
    set (rec := fun (j : nat) (st : state) => prove dep missing is_abstract desc check ord f j hyp' st) in *.
    assert (Cin : forall c, In c cleaned <-> In c (dep k) /\ ~ In c hyp').
    { intro c. unfold cleaned. split.
      - intro X. apply (Permutation_in _ (H_ord _ _)) in X. apply filter_In in X. destruct X as [X Y].
        apply nodup_In in X. split; [exact X|]. apply negb_true_iff in Y. apply mem_not_In in Y. exact Y.
      - intros [X Y]. apply (Permutation_in _ (Permutation_sym (H_ord _ _))). apply filter_In.
        split; [apply nodup_In; exact X|]. apply negb_true_iff. apply mem_not_In. exact Y. }
    assert (R : forall j t o t', needs k j -> sound t -> rec j t = (o, t') -> good hyp' j t o t').
    { intros j t o' t' N St Er. apply (IH j hyp' t o' t'); [exact (H_closed k j K N)| |exact St|exact Er].
      intros h [<-|Hh]; [exact (proj1 H_str k j K N)|]. pose proof (HS h Hh). pose proof (proj1 H_str k j K N). lia. }
    assert (S1 : sound s1) by exact S.
    destruct (prove_each rec cleaned [] s1) as [r s2] eqn:Ee.
    destruct (prove_each_good hyp' rec cleaned) with (passed := @nil nat) (s := s1) (r := r) (s' := s2) as [S2 P];
      [|exact S1|exact Ee|].
    { intros j t o' t' Hj. apply R. left. apply Cin. exact Hj. }
    destruct r as [o2|passed].
    { injection E as <- <-. split; [exact S2|]. clear - Ee. revert Ee. generalize s1. generalize (@nil nat).
      induction cleaned as [|x l IH]; intros p st Ee; [discriminate|]. cbn [prove_each] in Ee.
      destruct (rec x st) as [[| |[|]] st']; try (injection Ee as <- _; exact I); exact (IH _ _ Ee). }
    destruct P as (m & Tm & A & _ & C & D). cbn [touched s1] in Tm.
    assert (A' : forall c, In c passed -> In c cleaned /\ supported hyp' c)
      by (intros c Hc; destruct (A c Hc) as [[]|X]; exact X).
    (* dependencies below the stratum of k are exact, those in it are between V and supported *)
    set (typing := hyp' ++ passed) in *.
    assert (Below : forall d, needs k d -> str d <> str k -> supported hyp' d -> V d = true).
    { intros d N Q X. apply (supported_V hyp' d (H_closed k d K N)); [|exact X]. pose proof (proj1 H_str k d K N).
      intros h [<-|Hh]; [lia|]. pose proof (HS h Hh). lia. }
    assert (TyLo : forall j, In j (dep k) -> V j = true -> mem j typing = true).
    { intros j Hj Vj. apply mem_In. apply in_app_iff. destruct (in_dec Nat.eq_dec j hyp') as [X|X]; [left; exact X|right].
      apply C; [apply Cin; split; assumption|exact Vj]. }
    assert (TyBelow : forall j, In j (dep k) -> str j <> str k -> mem j typing = V j).
    { intros j Hj Q. pose proof (proj1 H_str k j K (or_introl Hj)) as L. destruct (V j) eqn:Vj; [exact (TyLo j Hj Vj)|].
      apply mem_not_In. intro X. apply in_app_iff in X. destruct X as [[<-|Hh]|X].
      - congruence.
      - pose proof (HS j Hh). lia.
      - destruct (A' j X) as [_ Su]. rewrite (Below j (or_introl Hj) Q Su) in Vj. discriminate. }
    assert (CheckLo : check k V = true -> check k (fun j => mem j typing) = true).
    { apply H_mono. intros j Hj. destruct (Nat.eq_dec (str j) (str k)) as [Q|Q].
      - right. split; [|exact (TyLo j Hj)]. intro N. apply (proj2 H_str k j K Hj) in N. lia.
      - left. symmetry. exact (TyBelow j Hj Q). }
    (* the pairs that support k *)
    assert (Joined : forall extra, (forall d, In d extra -> needs k d /\ str d = str k /\ supported hyp' d) ->
      exists T, (forall j, In j (dep k) -> str j = str k -> mem j typing = true -> T j = true) /\
                (forall d, In d extra -> T d = true) /\ T k = true /\
                (forall i, In i all -> str i <> str k -> T i = V i) /\
                (forall j, In j all -> str j = str k -> T j = true -> In j hyp \/ j = k \/ justified T j)).
    { intros extra Ex.
      destruct (supported_join (str k) hyp' (filter (fun c => Nat.eqb (str c) (str k)) passed ++ extra)) as (T & TA & TB & TL & TJ).
      { intros j Hj. apply in_app_iff in Hj. destruct Hj as [Hj|Hj].
        - apply filter_In in Hj. destruct Hj as [Hp Q]. apply Nat.eqb_eq in Q. destruct (A' j Hp) as [Hc Su].
          apply Cin in Hc. split; [exact (H_closed k j K (or_introl (proj1 Hc)))|]. split; assumption.
        - destruct (Ex j Hj) as (N & Q & Su). split; [exact (H_closed k j K N)|]. split; assumption. }
      set (T' := fun i => T i || (mem i hyp' && Nat.eqb (str i) (str k))).
      assert (Off : forall i, In i all -> str i <> str k -> T' i = V i).
      { intros i Ia Q. unfold T'. rewrite (TB i Ia Q). destruct (Nat.eqb (str i) (str k)) eqn:Z; [apply Nat.eqb_eq in Z; congruence|].
        rewrite andb_false_r. apply orb_false_r. }
      exists T'. split; [|split; [|split; [|split]]].
      - intros j Hj Q X. apply mem_In in X. apply in_app_iff in X. unfold T'. destruct X as [X|X].
        + apply mem_In in X. rewrite X, Q, Nat.eqb_refl. apply orb_true_r.
        + rewrite TA; [reflexivity|]. apply in_app_iff. left. apply filter_In. split; [exact X|]. rewrite Q. apply Nat.eqb_refl.
      - intros d Hd. unfold T'. rewrite TA; [reflexivity|]. apply in_app_iff. right. exact Hd.
      - unfold T'. rewrite Nat.eqb_refl. replace (mem k hyp') with true; [apply orb_true_r|].
        symmetry. apply mem_In. left. reflexivity.
      - exact Off.
      - intros j Ja Q X. unfold T' in X. apply orb_true_iff in X. destruct X as [X|X].
        + destruct (TJ j Ja Q X) as [[->|Y]|Y]; [right; left; reflexivity|left; exact Y|right; right].
          revert Y. apply (justified_mono j _ _ Ja). intros i Ia N. destruct (Nat.eq_dec (str i) (str k)) as [Z|Z].
          * right. split; [congruence|]. unfold T'. intros ->. reflexivity.
          * left. rewrite (Off i Ia Z). exact (TB i Ia Z).
        + apply andb_true_iff in X. destruct X as [X _]. apply mem_In in X. destruct X as [->|X]; [right; left; reflexivity|left; exact X]. }
    assert (Sup : forall extra T,
      (forall i, In i all -> str i <> str k -> T i = V i) -> T k = true ->
      (forall j, In j all -> str j = str k -> T j = true -> In j hyp \/ j = k \/ justified T j) ->
      (forall d, In d extra -> T d = true) -> justified T k -> supported hyp k).
    { intros _ T Off Tk TJ _ Jk. exists T. split; [exact Tk|]. split; [exact Off|]. intros j Ja Q X.
      destruct (TJ j Ja Q X) as [Y|[->|Y]]; [left; exact Y|right; exact Jk|right; exact Y]. }
    assert (CheckUp : is_abstract k = false -> check k (fun j => mem j typing) = true -> supported hyp k).
    { intros Na Ck. destruct (Joined []) as (T & TA & TB & Tk & Off & TJ); [intros d []|].
      apply (Sup [] T Off Tk TJ TB). left. split; [exact Na|]. revert Ck. apply H_mono. intros j Hj.
      destruct (Nat.eq_dec (str j) (str k)) as [Q|Q].
      - right. split; [|exact (TA j Hj Q)]. intro N. apply (proj2 H_str k j K Hj) in N. lia.
      - left. rewrite (TyBelow j Hj Q). symmetry. apply Off; [exact (H_closed k j K (or_introl Hj))|exact Q]. }
    assert (DescUp : forall d, In d (desc k) -> supported hyp' d -> supported hyp k).
    { intros d Hd Su. destruct (Nat.eq_dec (str d) (str k)) as [Q|Q].
      - destruct (Joined [d]) as (T & TA & TB & Tk & Off & TJ).
        { intros x [<-|[]]. split; [right; exact Hd|]. split; assumption. }
        apply (Sup [d] T Off Tk TJ TB). right. exists d. split; [exact Hd|]. apply TB. left. reflexivity.
      - destruct (Joined []) as (T & TA & TB & Tk & Off & TJ); [intros x []|].
        apply (Sup [] T Off Tk TJ TB). right. exists d. split; [exact Hd|].
        rewrite (Off d (H_closed k d K (or_intror Hd)) Q). exact (Below d (or_intror Hd) Q Su). }
    (* when no hypothesis was touched the typing is exact *)
    assert (CheckEx : touched s2 = false -> check k (fun j => mem j typing) = check k V).
    { intro Z. rewrite Tm in Z. apply orb_false_iff in Z. destruct Z as [Z1 Z2]. apply H_local. intros j Hj.
      assert (Nh : ~ In j hyp').
      { intro X. apply mem_In in X. assert (Y : existsb (fun c => mem c hyp') cands = true); [|congruence].
        apply existsb_exists. exists j. split; [apply nodup_In; exact Hj|exact X]. }
      destruct (V j) eqn:Vj; [exact (TyLo j Hj Vj)|]. apply mem_not_In. intro X. apply in_app_iff in X.
      destruct X as [X|X]; [exact (Nh X)|]. destruct (D Z2 j X) as [[]|Y]. congruence. }
    assert (VF : forall b, b = (negb (is_abstract k) && check k V || existsb V (desc k)) -> b = V k).
    { intros b ->. destruct (V k) eqn:Vk.
      - destruct (V_justified k K Vk) as [[Na Ck]|(d & Hd & Vd)].
        + rewrite Na, Ck. reflexivity.
        + apply orb_true_iff. right. apply existsb_exists. exists d. split; assumption.
      - apply not_true_is_false. intro X. assert (Y : V k = true); [|congruence]. apply justified_V; [exact K|].
        apply orb_true_iff in X. destruct X as [X|X].
        + apply andb_true_iff in X. destruct X as [X Y]. apply negb_true_iff in X. left. split; assumption.
        + apply existsb_exists in X. right. exact X. }
    assert (Done : forall b s3, sound s3 -> (touched s3 = false -> b = V k) -> (V k = true -> b = true) ->
      (b = true -> supported hyp k) ->
      good hyp k s (Verdict b) (mkState (if touched s3 then cache s3 else (k, b) :: cache s3) (touched s || touched s3) (tick s3))).
    { intros b s3 S3 Ex Lo Up. split.
      - intros x c Lx Xa. cbn [cache] in Lx. destruct (touched s3); [exact (S3 x c Lx Xa)|].
        cbn [lookup] in Lx. destruct (Nat.eqb x k) eqn:Z; [|exact (S3 x c Lx Xa)].
        apply Nat.eqb_eq in Z. subst x. injection Lx as <-. exact (Ex eq_refl).
      - exists (touched s3). split; [reflexivity|]. split; [exact Ex|]. split; [exact Lo|exact Up]. }
    assert (RD : forall j t o t', In j (desc k) -> sound t -> rec j t = (o, t') -> good hyp' j t o t')
      by (intros j t o' t' Hj; apply R; right; exact Hj).
    destruct (check_idx is_abstract desc check rec k typing s2) as [o3 s3] eqn:Ei.
    unfold check_idx in Ei. destruct (is_abstract k) eqn:Ab.
    - destruct (desc k) as [|d0 ds] eqn:Ed.
      { injection Ei as <- <-. injection E as <- <-. split; [exact S2|exact I]. }
      destruct (first_proved_good hyp' rec (d0 :: ds) RD s2 o3 s3 S2 Ei) as [S3 X].
      destruct o3 as [| |b]; [injection E as <- <-; split; [exact S3|exact I]..|].
      injection E as <- <-. destruct X as (m3 & Tm3 & Ex & Lo & Up). apply Done; [exact S3| | |].
      + intro Z. rewrite Tm3 in Z. apply orb_false_iff in Z. apply VF. rewrite (Ex (proj2 Z)). reflexivity.
      + intro Vk. apply Lo. destruct (V_justified k K Vk) as [[Na _]|(d & Hd & Vd)]; [congruence|].
        apply existsb_exists. exists d. rewrite Ed in Hd. split; assumption.
      + intro Eb. destruct (Up Eb) as (d & Hd & Su & _). exact (DescUp d Hd Su).
    - destruct (check k (fun j => mem j typing)) eqn:Ck.
      + injection Ei as <- <-. injection E as <- <-. apply Done; [exact S2| |reflexivity|intros _; exact (CheckUp eq_refl eq_refl)].
        intro Z. apply VF. rewrite <- (CheckEx Z). reflexivity.
      + destruct (first_proved_good hyp' rec (desc k) RD s2 o3 s3 S2 Ei) as [S3 X].
        destruct o3 as [| |b]; [injection E as <- <-; split; [exact S3|exact I]..|].
        injection E as <- <-. destruct X as (m3 & Tm3 & Ex & Lo & Up). apply Done; [exact S3| | |].
        * intro Z. rewrite Tm3 in Z. apply orb_false_iff in Z. apply VF. rewrite <- (CheckEx (proj1 Z)). exact (Ex (proj2 Z)).
        * intro Vk. destruct (V_justified k K Vk) as [[_ Cv]|(d & Hd & Vd)]; [discriminate (CheckLo Cv)|].
          apply Lo. apply existsb_exists. exists d. split; assumption.
        * intro Eb. destruct (Up Eb) as (d & Hd & Su & _). exact (DescUp d Hd Su).
  Qed.

  Lemma prove_exact fuel k s b s' : In k all -> sound s ->
    prove dep missing is_abstract desc check ord fuel k [] s = (Verdict b, s') -> b = V k.
  Proof.
    intros K S E. destruct (prove_good fuel k [] s (Verdict b) s' K) as [_ (m & _ & _ & Lo & Up)]; [intros h []|exact S|exact E|].
    destruct b.
    - symmetry. apply (supported_V [] k K); [intros h []|exact (Up eq_refl)].
    - destruct (V k); [discriminate (Lo eq_refl)|reflexivity].
  Qed.
End Correct.
