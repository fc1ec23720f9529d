(** The alternatives of an extended label are its resolutions. *)
From Coq Require Import List Arith Bool Lia.
Import ListNotations.
From Verif Require Import RbeModel GraphModel GraphLemmas ExtModel ExtSpec ExtLemmas EngineModel EngineSpec XtdModel XtdSpec.

(** the alternative has these buckets and these constraints, without repetition; the scope
    of a constraint is the union of its scopes *)
Definition represents (a : alternative) (B : list nat) (K : list (nat * list nat)) : Prop :=
  no_repeats a /\
  (forall b, In b (a_buckets a) <-> In b B) /\
  (forall c, In c (map sc_expr (a_constraints a)) <-> In c (map fst K)) /\
  (forall x, In x (a_constraints a) -> forall b, In b (sc_scope x) <-> exists S, In (sc_expr x, S) K /\ In b S).

Lemma represents_default : represents alt_default [] [].
Proof. split; [apply made_no_repeats; constructor|]. split; [intro; reflexivity|]. split; [intro; reflexivity|intros x []]. Qed.
Lemma represents_bucket i : represents (with_bucket i) [i] [].
Proof. split; [apply made_no_repeats; constructor|]. split; [intro; reflexivity|]. split; [intro; reflexivity|intros x []]. Qed.
Lemma represents_constraint i : represents (with_constraint i) [] [(i, [])].
Proof.
  split; [apply made_no_repeats; constructor|]. split; [intro; reflexivity|]. split; [intro; reflexivity|].
  intros x [<-|[]] b. simpl. split; [intros []|intros (S & [E|[]] & H)]. injection E as <-. destruct H.
Qed.

Lemma in_scopes x l b : In b (scopes_of x l) <-> exists c, In c l /\ sc_expr c = x /\ In b (sc_scope c).
Proof.
  unfold scopes_of. rewrite in_concat. split.
  - intros (s & Hs & Hb). apply in_map_iff in Hs. destruct Hs as (c & <- & Hc). apply filter_In in Hc. destruct Hc as [Hc E].
    apply Nat.eqb_eq in E. eauto.
  - intros (c & Hc & E & Hb). exists (sc_scope c). split; [|exact Hb]. apply in_map. apply filter_In. split; [exact Hc|].
    apply Nat.eqb_eq. exact E.
Qed.

Lemma represents_merge a a' B K B' K' : represents a B K -> represents a' B' K' -> represents (merge a a') (B ++ B') (K ++ K').
Proof.
  intros (N & HB & HC & HS) (N' & HB' & HC' & HS'). split; [apply merge_no_repeats; assumption|]. split; [|split].
  - intro b. cbn [merge a_buckets]. change (fold_left push_unique (a_buckets a') (a_buckets a)) with (un (a_buckets a) (a_buckets a')).
    rewrite un_In, in_app_iff, HB, HB'. reflexivity.
  - intro c. cbn [merge a_constraints]. change (In c (map sc_expr (cun (a_constraints a) (a_constraints a'))) <-> In c (map fst (K ++ K'))).
    rewrite cun_exprs, un_In, map_app, in_app_iff, HC, HC'. reflexivity.
  - intros x Hx b. rewrite (merge_scopes a a' x N N' Hx), firsts_In, in_scopes. split.
    + intros (c & Hc & E & Hb). apply in_app_iff in Hc. destruct Hc as [Hc|Hc].
      * apply (HS c Hc b) in Hb. rewrite E in Hb. destruct Hb as (S & HK & Hb). exists S. rewrite in_app_iff. auto.
      * apply (HS' c Hc b) in Hb. rewrite E in Hb. destruct Hb as (S & HK & Hb). exists S. rewrite in_app_iff. auto.
    + intros (S & HK & Hb). apply in_app_iff in HK. destruct HK as [HK|HK].
      * assert (In (sc_expr x) (map sc_expr (a_constraints a))) as X by (apply HC; apply (in_map fst) in HK; exact HK).
        apply in_map_iff in X. destruct X as (c & E & Hc). exists c. rewrite in_app_iff. split; [auto|]. split; [exact E|].
        apply (HS c Hc b). rewrite E. eauto.
      * assert (In (sc_expr x) (map sc_expr (a_constraints a'))) as X by (apply HC'; apply (in_map fst) in HK; exact HK).
        apply in_map_iff in X. destruct X as (c & E & Hc). exists c. rewrite in_app_iff. split; [auto|]. split; [exact E|].
        apply (HS' c Hc b). rewrite E. eauto.
Qed.

Lemma scoped_merge a c : no_repeats a ->
  mkAlt (a_buckets a) (push_unique_constraint (a_constraints a) (mkScoped c (a_buckets a))) = merge a (mkAlt [] [mkScoped c (a_buckets a)]).
Proof. intros _. reflexivity. Qed.
Lemma represents_scoped cs : forall a B K, represents a B K -> represents (with_scoped_constraints a cs) B (K ++ map (fun c => (c, B)) cs).
Proof.
  induction cs as [|c cs IH]; intros a B K R; [rewrite app_nil_r; destruct a; exact R|].
  assert (R1 : represents (mkAlt (a_buckets a) (push_unique_constraint (a_constraints a) (mkScoped c (a_buckets a)))) B (K ++ [(c, B)])).
  { pose proof R as (N & HB & HC & HS). rewrite scoped_merge by exact N. rewrite <- (app_nil_r B) at 1. apply (represents_merge _ _ B K [] [(c, B)]); [exact R|].
    split; [split; [constructor|split; [constructor; [intros []|constructor]|intros x [<-|[]]; exact (proj1 N)]]|].
    split; [intro; reflexivity|]. split; [intro; reflexivity|]. intros x [<-|[]] b. simpl. rewrite HB. split.
    - intro H. exists B. auto.
    - intros (S & [E|[]] & H). injection E as <-. exact H. }
  apply IH in R1. rewrite <- app_assoc in R1. exact R1.
Qed.
Lemma scoped_buckets a cs : a_buckets (with_scoped_constraints a cs) = a_buckets a.
Proof. reflexivity. Qed.

Definition some_bucket (l : list alternative) : bool := existsb (fun a => match a_buckets a with [] => false | _ => true end) l.

Section Res.
  Variable sch : schema.
  Variable rank : nat -> nat.
  Hypothesis H_rank : grounded sch rank.
  Hypothesis H_or : ors_nonempty sch.
  Notation dom := (map fst (shapes sch)).

  Lemma find_dom i e : find sch i = Some e -> In i dom.
  Proof.
    unfold find. generalize (shapes sch) as l. intro l. induction l as [|[j e'] l IH]; [discriminate|]. simpl. destruct (Nat.eqb_spec i j); auto.
  Qed.

  Lemma deref_stands fuel : forall seen i, NoDup seen -> incl seen dom -> (forall j, In j seen -> rank i < rank j) ->
    S (length (shapes sch)) <= fuel + length seen -> stands_for sch i (deref_loop sch fuel seen i).
  Proof.
    induction fuel as [|fuel IH]; intros seen i N I R L.
    { exfalso. pose proof (NoDup_incl_length N I) as X. rewrite map_length in X. lia. }
    cbn [deref_loop]. destruct (RbeModel.mem i seen) eqn:M; [apply mem_In, R in M; lia|].
    assert (NI : ~ In i seen) by (intro H; apply (proj2 (mem_In _ _)) in H; unfold mem in H; unfold RbeModel.mem in M; congruence).
    destruct (find sch i) as [e|] eqn:F; [|apply stands_here; intros j; congruence].
    destruct e as [l|l|i'|c|s| |j|]; try (apply stands_here; intros j'; congruence).
    eapply stands_ref; [exact F|]. apply IH; [constructor; assumption| | |simpl; lia].
    - intros x [<-|H]; [exact (find_dom _ _ F)|exact (I x H)].
    - assert (X : rank j < rank i) by (apply H_rank; exists (ERef j); auto). intros x [<-|H]; [exact X|]. specialize (R x H). lia.
  Qed.
  Lemma dereference_stands i : stands_for sch i (dereference sch i).
  Proof. apply deref_stands; [constructor|intros x []|intros x []|simpl; lia]. Qed.
  Lemma stands_fun i j : stands_for sch i j -> forall k, stands_for sch i k -> j = k.
  Proof.
    induction 1 as [i H|i j k F S IH]; intros k' S'.
    - inversion S' as [? H'|? j ? F' S'']; subst; [reflexivity|]. destruct (H _ F').
    - inversion S' as [? H'|? j' ? F' S'']; subst; [destruct (H' _ F)|]. apply IH. congruence.
  Qed.
  Lemma stands_not_ref i j : stands_for sch i j -> forall k, find sch j <> Some (ERef k).
  Proof. induction 1; assumption. Qed.
  Lemma stands_rank i j : stands_for sch i j -> rank j <= rank i.
  Proof. induction 1 as [i H|i j k F S IH]; [lia|]. assert (rank j < rank i) by (apply H_rank; exists (ERef j); auto). lia. Qed.
  Lemma stands_resolves i j : stands_for sch i j -> forall B K, resolves sch i B K <-> resolves sch j B K.
  Proof.
    induction 1 as [i H|i j k F S IH]; intros B K; [reflexivity|]. rewrite <- IH. split.
    - intro R. inversion R; subst; congruence.
    - intro R. econstructor; eassumption.
  Qed.
  Lemma stands_bucketed i j : stands_for sch i j -> (bucketed sch i <-> bucketed sch j).
  Proof.
    induction 1 as [i H|i j k F S IH]; [reflexivity|]. rewrite <- IH. split.
    - intro R. inversion R; subst; congruence.
    - intro R. econstructor 2; eassumption.
  Qed.
  Lemma stands_deref i j : stands_for sch i j <-> j = dereference sch i.
  Proof. split; [intro S; exact (stands_fun i j S _ (dereference_stands i))|intros ->; apply dereference_stands]. Qed.
  Lemma Forall2_stands es cs : Forall2 (stands_for sch) es cs <-> cs = map (dereference sch) es.
  Proof.
    split.
    - induction 1 as [|e c es cs S F IH]; [reflexivity|]. simpl. f_equal; [apply stands_deref; exact S|exact IH].
    - intros ->. induction es as [|e es IH]; simpl; constructor; [apply dereference_stands|exact IH].
  Qed.

  (** the alternatives computed for [i] are right *)
  Definition right_for (alts : list alternative) (i : nat) : Prop :=
    (forall a, In a alts -> exists B K, resolves sch i B K /\ represents a B K) /\
    (forall B K, resolves sch i B K -> exists a, In a alts /\ represents a B K) /\
    alts <> [] /\ (some_bucket alts = true <-> bucketed sch i).

  Section Rec.
    Variable rec : nat -> list alternative.

    Lemma conjuncts_main es cs alts : conjuncts sch rec es (Some alts) cs = (Some alts, cs ++ map (dereference sch) es).
    Proof.
      revert cs. induction es as [|e es IH]; intro cs; simpl; [rewrite app_nil_r; reflexivity|].
      rewrite IH, <- app_assoc. reflexivity.
    Qed.
    Lemma conjuncts_spec es : forall cs, (forall e, In e es -> some_bucket (rec e) = true <-> bucketed sch e) ->
      ((forall d, In d es -> ~ bucketed sch d) /\ conjuncts sch rec es None cs = (None, cs ++ map (dereference sch) es)) \/
      (exists before e after, es = before ++ e :: after /\ (forall d, In d before -> ~ bucketed sch d) /\ bucketed sch e /\
         conjuncts sch rec es None cs = (Some (rec e), cs ++ map (dereference sch) (before ++ after))).
    Proof.
      induction es as [|e es IH]; intros cs H.
      - left. split; [intros d []|]. simpl. rewrite app_nil_r. reflexivity.
      - cbn [conjuncts]. change (existsb (fun a => match a_buckets a with [] => false | _ => true end) (rec e)) with (some_bucket (rec e)).
        pose proof (H e (or_introl eq_refl)) as X. destruct (some_bucket (rec e)).
        + right. exists [], e, es. split; [reflexivity|]. split; [intros d []|]. split; [apply X; reflexivity|]. apply conjuncts_main.
        + assert (NB : ~ bucketed sch e) by (intro K; apply X in K; discriminate).
          destruct (IH (cs ++ [dereference sch e]) (fun d Hd => H d (or_intror Hd))) as [[N E]|(before & e' & after & -> & N & Be & E)].
          * left. split; [intros d [<-|Hd]; auto|]. rewrite E, <- app_assoc. reflexivity.
          * right. exists (e :: before), e', after. split; [reflexivity|]. split; [intros d [<-|Hd]; auto|]. split; [exact Be|].
            rewrite E, <- app_assoc. reflexivity.
    Qed.

    Lemma cross_spec ps : (forall p, In p ps -> right_for (rec p) p) -> forall acc,
      let r := fold_left (fun acc p => cross_merge acc (rec p)) ps acc in
      (forall a, In a r -> exists a0 B K, In a0 acc /\ resolves_all sch ps B K /\
         (forall B0 K0, represents a0 B0 K0 -> represents a (B0 ++ B) (K0 ++ K)) /\ (forall b, In b (a_buckets a0) -> In b (a_buckets a))) /\
      (forall a0 B K, In a0 acc -> resolves_all sch ps B K -> exists a, In a r /\
         forall B0 K0, represents a0 B0 K0 -> represents a (B0 ++ B) (K0 ++ K)) /\
      (acc <> [] -> r <> []).
    Proof.
      induction ps as [|p ps IH]; intros RF acc r.
      - subst r. split; [|split].
        + intros a H. exists a, [], []. split; [exact H|]. split; [constructor|]. split; [|auto]. intros B0 K0. rewrite !app_nil_r. auto.
        + intros a0 B K H R. inversion R; subst. exists a0. split; [exact H|]. intros B0 K0. rewrite !app_nil_r. auto.
        + auto.
      - cbn [fold_left] in r. destruct (RF p (or_introl eq_refl)) as (S & C & NE & _).
        destruct (IH (fun q Hq => RF q (or_intror Hq)) (cross_merge acc (rec p))) as (I1 & I2 & I3). fold r in I1, I2, I3. split; [|split].
        + intros a H. destruct (I1 a H) as (a1 & B & K & H1 & RA & RP & MB). unfold cross_merge in H1. apply in_flat_map in H1.
          destruct H1 as (a0 & Ha0 & H1). apply in_map_iff in H1. destruct H1 as (x & <- & Hx). destruct (S x Hx) as (Bx & Kx & Rx & Px).
          exists a0, (Bx ++ B), (Kx ++ K). split; [exact Ha0|]. split; [constructor; assumption|]. split.
          * intros B0 K0 P0. rewrite !app_assoc. apply RP. apply represents_merge; assumption.
          * intros b Hb. apply MB. cbn [merge a_buckets]. apply (un_In (a_buckets x) (a_buckets a0)). left. exact Hb.
        + intros a0 B K Ha0 RA. inversion RA as [|? ? Bx Kx B' K' Rx RA']; subst. destruct (C Bx Kx Rx) as (x & Hx & Px).
          destruct (I2 (merge a0 x) B' K') as (a & Ha & RP); [|exact RA'|].
          * unfold cross_merge. apply in_flat_map. exists a0. split; [exact Ha0|]. apply in_map. exact Hx.
          * exists a. split; [exact Ha|]. intros B0 K0 P0. rewrite !app_assoc. apply RP. apply represents_merge; assumption.
        + intro NA. apply I3. destruct acc as [|a0 acc]; [congruence|]. destruct (rec p) as [|x l]; [congruence|]. discriminate.
    Qed.
  End Rec.

  Lemma right_deref alts i : right_for alts (dereference sch i) -> right_for alts i.
  Proof.
    pose proof (dereference_stands i) as D. intros (S & C & NE & B). split; [|split; [|split; [exact NE|]]].
    - intros a H. destruct (S a H) as (B0 & K & R & P). exists B0, K. split; [apply (stands_resolves _ _ D); exact R|exact P].
    - intros B0 K R. apply C. apply (stands_resolves _ _ D). exact R.
    - rewrite B. symmetry. apply stands_bucketed. exact D.
  Qed.

  Lemma some_bucket_in l : some_bucket l = true <-> exists a b, In a l /\ In b (a_buckets a).
  Proof.
    unfold some_bucket. rewrite existsb_exists. split.
    - intros (a & Ha & H). destruct (a_buckets a) as [|b bs] eqn:E; [discriminate|]. exists a, b. split; [exact Ha|]. rewrite E. left. reflexivity.
    - intros (a & b & Ha & Hb). exists a. split; [exact Ha|]. destruct (a_buckets a); [destruct Hb|reflexivity].
  Qed.

  Lemma alternatives_right fuel : forall path i, NoDup path -> incl path dom -> (forall j, In j path -> rank i < rank j) ->
    S (length (shapes sch)) < fuel + length path -> right_for (alternatives_rec sch fuel path i) i.
  Proof.
    induction fuel as [|fuel IH]; intros path i N I R L.
    { exfalso. pose proof (NoDup_incl_length N I) as X. rewrite map_length in X. simpl in L. lia. }
    apply right_deref. cbn [alternatives_rec]. set (j := dereference sch i).
    assert (RJ : rank j <= rank i) by (apply stands_rank, dereference_stands).
    destruct (RbeModel.mem j path) eqn:M; [apply mem_In, R in M; lia|].
    assert (NJ : ~ In j path) by (intro H; apply (proj2 (mem_In _ _)) in H; unfold mem in H; unfold RbeModel.mem in M; congruence).
    assert (REC : forall e, refers sch j e -> right_for (alternatives_rec sch fuel (j :: path) e) e).
    { intros e He. pose proof (H_rank _ _ He) as X. destruct He as (e' & F & _). apply IH.
      - constructor; assumption.
      - intros x [<-|Hx]; [exact (find_dom _ _ F)|exact (I x Hx)].
      - intros x [<-|Hx]; [exact X|]. specialize (R x Hx). lia.
      - simpl. lia. }
    destruct (find sch j) as [e|] eqn:F.
    2:{ split; [|split; [|split; [discriminate|]]].
        - intros a [<-|[]]. exists [], []. split; [apply res_undefined; exact F|apply represents_default].
        - intros B K RS. inversion RS; subst; try congruence. exists alt_default. split; [left; reflexivity|apply represents_default].
        - split; [discriminate|]. intro Bk. inversion Bk; congruence. }
    assert (CON : (forall B K, resolves sch j B K <-> B = [] /\ K = [(j, [])]) -> ~ bucketed sch j -> right_for [with_constraint j] j).
    { intros H NB. split; [|split; [|split; [discriminate|]]].
      - intros a [<-|[]]. exists [], [(j, [])]. split; [apply H; auto|apply represents_constraint].
      - intros B K RS. apply H in RS. destruct RS as [-> ->]. exists (with_constraint j). split; [left; reflexivity|apply represents_constraint].
      - split; [discriminate|contradiction]. }
    set (rec := alternatives_rec sch fuel (j :: path)) in *.
    destruct e as [es|es|i'|c|s| |i'|].
    - (* or *)
      assert (RO : forall e, In e es -> right_for (rec e) e) by (intros e He; apply REC; exists (EOr es); auto).
      split; [|split; [|split]].
      + intros a Ha. apply in_flat_map in Ha. destruct Ha as (e & He & Ha). destruct (RO e He) as (S & _). destruct (S a Ha) as (B & K & RS & P).
        exists B, K. split; [exact (res_or sch j es e B K F He RS)|exact P].
      + intros B K RS. inversion RS; subst; try congruence. match goal with H : find sch j = Some (EOr ?x) |- _ => rewrite F in H; injection H as <- end.
        match goal with H : In ?e es, H' : resolves sch ?e B K |- _ => destruct (RO e H) as (_ & C & _); destruct (C B K H') as (a & Ha & P);
          exists a; split; [apply in_flat_map; exists e; auto|exact P] end.
      + destruct es as [|e es]; [destruct (H_or _ F)|]. destruct (RO e (or_introl eq_refl)) as (_ & _ & NE & _). simpl.
        destruct (rec e); [congruence|discriminate].
      + rewrite some_bucket_in. split.
        * intros (a & b & Ha & Hb). apply in_flat_map in Ha. destruct Ha as (e & He & Ha). destruct (RO e He) as (_ & _ & _ & B).
          apply (bucketed_or sch j es e F He). apply B. apply some_bucket_in. eauto.
        * intro Bk. inversion Bk; subst; try congruence. match goal with H : find sch j = Some (EOr ?x) |- _ => rewrite F in H; injection H as <- end.
          match goal with H : In ?e es, H' : bucketed sch ?e |- _ => destruct (RO e H) as (_ & _ & _ & B); apply B in H'; apply some_bucket_in in H';
            destruct H' as (a & b & Ha & Hb); exists a, b; split; [apply in_flat_map; exists e; auto|exact Hb] end.
    - (* and *)
      assert (RO : forall e, In e es -> right_for (rec e) e) by (intros e He; apply REC; exists (EAnd es); auto).
      assert (SB : forall e, In e es -> some_bucket (rec e) = true <-> bucketed sch e) by (intros e He; apply RO; exact He).
      destruct (conjuncts_spec rec es [] SB) as [[NB E]|(before & e & after & -> & NB & Be & E)]; rewrite E; cbn [app].
      + assert (NBj : ~ bucketed sch j).
        { intro Bk. inversion Bk; subst; try congruence. match goal with H : find sch j = Some (EAnd ?x) |- _ => rewrite F in H; injection H as <- end.
          eapply NB; eassumption. }
        assert (P0 : represents (with_scoped_constraints alt_default (map (dereference sch) es)) [] (map (fun c => (c, [])) (map (dereference sch) es)))
          by exact (represents_scoped _ _ _ _ represents_default).
        split; [|split; [|split; [discriminate|]]].
        * intros a [<-|[]]. exists []. eexists. split; [|exact P0]. apply (res_and_none sch j es); [exact F|exact NB|]. apply Forall2_stands. reflexivity.
        * intros B K RS. inversion RS as [| | |? before e after cs B' K' F' NB' Be' FS RS'|? es' cs F' NB' FS| | | | |]; subst; try congruence.
          -- rewrite F in F'. injection F' as ->. exfalso. apply (NB e); [apply in_app_iff; right; left; reflexivity|exact Be'].
          -- rewrite F in F'. injection F' as ->. apply Forall2_stands in FS. subst cs. eexists. split; [left; reflexivity|exact P0].
        * split; [discriminate|contradiction].
      + assert (HE : In e (before ++ e :: after)) by (apply in_app_iff; right; left; reflexivity).
        destruct (RO e HE) as (S & C & NE & SBe). split; [|split; [|split]].
        * intros a Ha. apply in_map_iff in Ha. destruct Ha as (a0 & <- & Ha0). destruct (S a0 Ha0) as (B & K & RS & P).
          exists B, (K ++ map (fun c => (c, B)) (map (dereference sch) (before ++ after))). split; [|apply represents_scoped; exact P].
          apply (res_and sch j before e after); [exact F|exact NB|exact Be| |exact RS]. apply Forall2_stands. reflexivity.
        * intros B K RS. inversion RS as [| | |? before' e' after' cs B' K' F' NB' Be' FS RS'|? es' cs F' NB' FS| | | | |]; subst; try congruence.
          -- rewrite F in F'. injection F' as F'.
             assert (X : before = before' /\ e = e' /\ after = after').
             { clear - F' NB NB' Be Be'. revert before' F' NB'. induction before as [|d l IHl]; intros [|d' l'] E NB'; simpl in E.
               - injection E as -> ->. auto.
               - injection E as -> _. exfalso. apply (NB' d'); [left; reflexivity|exact Be].
               - injection E as -> _. exfalso. apply (NB e'); [left; reflexivity|exact Be'].
               - injection E as -> E. destruct (IHl (fun x Hx => NB x (or_intror Hx)) l' E (fun x Hx => NB' x (or_intror Hx))) as (-> & -> & ->). auto. }
             destruct X as (<- & <- & <-). apply Forall2_stands in FS. subst cs. destruct (C B K' RS') as (a & Ha & P).
             eexists. split; [apply in_map; exact Ha|]. apply represents_scoped. exact P.
          -- rewrite F in F'. injection F' as <-. exfalso. exact (NB' e HE Be).
        * destruct (rec e); [congruence|discriminate].
        * split; [intros _; exact (bucketed_and sch j _ e F HE Be)|]. intros _. apply SBe in Be. apply some_bucket_in in Be.
          destruct Be as (a & b & Ha & Hb). apply some_bucket_in. eexists. exists b. split; [apply in_map; exact Ha|exact Hb].
    - (* not *) apply CON.
      + intros B K. split; [intro RS; inversion RS; subst; try congruence; auto|intros [-> ->]; econstructor; exact F].
      + intro Bk. inversion Bk; congruence.
    - (* node *) apply CON.
      + intros B K. split; [intro RS; inversion RS; subst; try congruence; auto|intros [-> ->]; econstructor; exact F].
      + intro Bk. inversion Bk; congruence.
    - (* shape *)
      assert (RO : forall p, In p (s_extends s) -> right_for (rec p) p) by (intros p Hp; apply REC; exists (EShape s); auto).
      destruct (cross_spec rec (s_extends s) RO [with_bucket j]) as (C1 & C2 & C3). split; [|split; [|split]].
      + intros a Ha. destruct (C1 a Ha) as (a0 & B & K & [<-|[]] & RA & RP & _). exists (j :: B), K.
        split; [exact (res_shape sch j s B K F RA)|]. exact (RP [j] [] (represents_bucket j)).
      + intros B K RS. inversion RS as [|? s' B' K' F' RA| | | | | | | |]; subst; try congruence. rewrite F in F'. injection F' as <-.
        destruct (C2 (with_bucket j) B' K (or_introl eq_refl) RA) as (a & Ha & RP). exists a. split; [exact Ha|]. exact (RP [j] [] (represents_bucket j)).
      + apply C3. discriminate.
      + split; [intros _; exact (bucketed_shape sch j s F)|]. intros _. apply some_bucket_in.
        assert (NE : fold_left (fun acc p => cross_merge acc (rec p)) (s_extends s) [with_bucket j] <> []) by (apply C3; discriminate).
        destruct (fold_left (fun acc p => cross_merge acc (rec p)) (s_extends s) [with_bucket j]) as [|a l] eqn:E; [congruence|].
        destruct (C1 a (or_introl eq_refl)) as (a0 & B & K & [<-|[]] & _ & _ & MB). exists a, j. split; [left; reflexivity|]. apply MB. left. reflexivity.
    - (* external *) apply CON.
      + intros B K. split; [intro RS; inversion RS; subst; try congruence; auto|intros [-> ->]; econstructor; exact F].
      + intro Bk. inversion Bk; congruence.
    - (* ref *) exfalso. exact (stands_not_ref _ _ (dereference_stands i) _ F).
    - (* empty *) split; [|split; [|split; [discriminate|]]].
      + intros a [<-|[]]. exists [], []. split; [apply res_empty; exact F|apply represents_default].
      + intros B K RS. inversion RS; subst; try congruence. exists alt_default. split; [left; reflexivity|apply represents_default].
      + split; [discriminate|]. intro Bk. inversion Bk; congruence.
  Qed.

  Theorem extend_alternatives_right i : right_for (extend_alternatives sch i) i.
  Proof. apply alternatives_right; [constructor|intros x []|intros x []|simpl; lia]. Qed.
End Res.
