(** Lemmas about compiling SHACL shapes (C69). *)
From Coq Require Import List Bool NArith ZArith Relations Lia Arith.
Import ListNotations.
From Verif Require Import PathModel PathSpec PathLemmas ShaclModel ShaclSpec ShaclConf GraphModel GraphSpec LevelModel LevelSpec LevelLemmas LevelProps.
From Verif Require Import PathModel PathSpec PathLemmas ShaclModel ShaclSpec ShaclConf ShcModel ShcSpec.

(** ** numbers *)
Lemma dec_enc t : dec (enc t) = t.
Proof.
  destruct t as [n|n|n]; unfold dec, enc.
  - replace (3 * n)%N with (0 + n * 3)%N by lia. rewrite N.mod_add, N.div_add by lia. reflexivity.
  - replace (3 * n + 1)%N with (1 + n * 3)%N by lia. rewrite N.mod_add, N.div_add by lia. reflexivity.
  - replace (3 * n + 2)%N with (2 + n * 3)%N by lia. rewrite N.mod_add, N.div_add by lia. reflexivity.
Qed.
Lemma decode_code x : decode (code x) = x.
Proof.
  destruct x as [c|n|n|n]; unfold decode, code.
  - replace (4 * enc c)%N with (0 + enc c * 4)%N by lia. rewrite N.mod_add, N.div_add by lia. change (0 mod 4)%N with 0%N. change (0 / 4)%N with 0%N. cbn [N.add]. rewrite dec_enc. reflexivity.
  - replace (4 * n + 1)%N with (1 + n * 4)%N by lia. rewrite N.mod_add, N.div_add by lia. reflexivity.
  - replace (4 * n + 2)%N with (2 + n * 4)%N by lia. rewrite N.mod_add, N.div_add by lia. reflexivity.
  - replace (4 * n + 3)%N with (3 + n * 4)%N by lia. rewrite N.mod_add, N.div_add by lia. reflexivity.
Qed.
Lemma usize_nonneg z : (0 <= z < 2 ^ 63)%Z -> Z.of_nat (usize_of z) = z.
Proof.
  intros H. unfold usize_of. rewrite Z.mod_small; [apply Z2Nat.id; lia|]. split; [lia|]. apply Z.lt_trans with (2 ^ 63)%Z; [lia|reflexivity].
Qed.

(** ** association lists *)
Lemma find_shape_some A t a : find_shape A t = Some a -> In (t, a) A.
Proof.
  induction A as [|[u b] A IH]; cbn [find_shape]; [discriminate|]. destruct (term_eqb_spec t u) as [->|N]; intros H.
  - injection H as ->. left. reflexivity.
  - right. apply IH, H.
Qed.
Lemma find_shape_none A t : find_shape A t = None <-> ~ In t (map fst A).
Proof.
  induction A as [|[u b] A IH]; cbn [find_shape map fst]; [firstorder|]. destruct (term_eqb_spec t u) as [->|N].
  - split; [discriminate|]. intros H. exfalso. apply H. left. reflexivity.
  - rewrite IH. split; [intros H [E|E]; [apply N; symmetry; exact E|exact (H E)]|intros H E; apply H; right; exact E].
Qed.
Lemma find_shape_in A t a : distinct A -> In (t, a) A -> find_shape A t = Some a.
Proof.
  unfold distinct. induction A as [|[u b] A IH]; intros D H; [destruct H|]. cbn [map fst] in D. inversion D as [|x l N D' E]; subst. cbn [find_shape]. destruct (term_eqb_spec t u) as [->|K].
  - destruct H as [H|H]; [injection H as ->; reflexivity|]. exfalso. apply N. apply (in_map fst) in H. exact H.
  - destruct H as [H|H]; [injection H as -> ->; contradiction K; reflexivity|]. apply IH; assumption.
Qed.
Lemma label_of_some l t i : label_of l t = Some i -> In (t, i) l.
Proof.
  induction l as [|[u j] l IH]; cbn [label_of]; [discriminate|]. destruct (term_eqb_spec t u) as [->|N]; intros H.
  - injection H as ->. left. reflexivity.
  - right. apply IH, H.
Qed.
Lemma label_of_none l t : label_of l t = None <-> ~ In t (map fst l).
Proof.
  induction l as [|[u b] l IH]; cbn [label_of map fst]; [firstorder|]. destruct (term_eqb_spec t u) as [->|N].
  - split; [discriminate|]. intros H. exfalso. apply H. left. reflexivity.
  - rewrite IH. split; [intros H [E|E]; [apply N; symmetry; exact E|exact (H E)]|intros H E; apply H; right; exact E].
Qed.
Lemma label_of_in l t i : NoDup (map fst l) -> In (t, i) l -> label_of l t = Some i.
Proof.
  induction l as [|[u b] l IH]; intros D H; [destruct H|]. cbn [map fst] in D. inversion D as [|x l' N D' E]; subst. cbn [label_of]. destruct (term_eqb_spec t u) as [->|K].
  - destruct H as [H|H]; [injection H as ->; reflexivity|]. exfalso. apply N. apply (in_map fst) in H. exact H.
  - destruct H as [H|H]; [injection H as -> ->; contradiction K; reflexivity|]. apply IH; assumption.
Qed.
Lemma label_inj l t u i : NoDup (map snd l) -> label_of l t = Some i -> label_of l u = Some i -> t = u.
Proof.
  intros D H K. apply label_of_some in H. apply label_of_some in K. induction l as [|[w j] l IH]; [destruct H|]. cbn [map snd] in D. inversion D as [|x l' N D' E]; subst.
  destruct H as [H|H], K as [K|K].
  - congruence.
  - injection H as -> ->. exfalso. apply N. apply (in_map snd) in K. exact K.
  - injection K as -> ->. exfalso. apply N. apply (in_map snd) in H. exact H.
  - apply IH; assumption.
Qed.

(** ** what a compiled shape has to do with its source *)
Definition labelled (L : list (term * nat)) (t : term) (i : nat) : Prop := label_of L t = Some i.
Section Match.
  Variable regex : N -> bool.
  Variable A : ast.
  Definition comp_match (L : list (term * nat)) (c : acomp) (d : comp) : Prop :=
    match c with
    | AClass t => d = CTest (code (XClass t))
    | ADatatype r => exists n, r = IriFull n /\ d = CTest (code (XDatatype n))
    | APattern k => regex k = true /\ d = CTest (code (XPattern k))
    | AOther k => d = CTest (code (XOther k))
    | AMinCount z => d = CMinCount (usize_of z)
    | AMaxCount z => d = CMaxCount (usize_of z)
    | AUniqueLang b => d = CUniqueLang b
    | AEquals r => exists n, r = IriFull n /\ d = CEquals n
    | ADisjoint r => exists n, r = IriFull n /\ d = CDisjoint n
    | ALess b r => exists n, r = IriFull n /\ d = CLess b n
    | AOr l => exists is, Forall2 (labelled L) l is /\ d = COr is
    | AAnd l => exists is, Forall2 (labelled L) l is /\ d = CAnd is
    | AXone l => exists is, Forall2 (labelled L) l is /\ d = CXone is
    | ANot t => exists i, labelled L t i /\ d = CNot i
    | ANode t => exists i, labelled L t i /\ d = CNode i
    | AClosed b _ => d = CClosed b
    | AHasValue v => exists t, convert_value v = Ok t /\ d = CHasValue t
    | AIn vs => exists ts, convert_values vs = Ok ts /\ d = CIn ts
    | AQualified t qmin qmax _ sib => exists i is, labelled L t i /\ Forall2 (labelled L) sib is /\ d = CQualified i is qmin qmax
    | ADeactivated _ => d = CClosed false
    end.
  Definition reifier_match (L : list (term * nat)) (a : ashape) (rf : option reifier) : Prop :=
    match a_path a, a_reifier a with
    | Some p, Some (required, ts) => exists n is, p = PPred n /\ Forall2 (labelled L) ts is /\ rf = Some (mkReifier n is required)
    | _, _ => rf = None
    end.
  Record shape_match (L : list (term * nat)) (id : term) (a : ashape) (s : shape) (ts : list target) : Prop := {
    m_id : s_id s = id;
    m_path : s_path s = a_path a;
    m_comps : Forall2 (comp_match L) (a_comps a) (s_comps s);
    m_props : Forall2 (labelled L) (a_props a) (s_props s);
    m_deact : s_deactivated s = is_deactivated (a_comps a);
    m_sev : s_severity s = a_severity a;
    m_allowed : allowed_properties A a = Ok (s_allowed s);
    m_reifier : reifier_match L a (s_reifier s);
    m_targets : ts = a_targets a }.

  Definition extends (L L' : list (term * nat)) : Prop := forall t i, label_of L t = Some i -> label_of L' t = Some i.
  Lemma labelled_mono L L' l is : extends L L' -> Forall2 (labelled L) l is -> Forall2 (labelled L') l is.
  Proof. intros E H. induction H as [|x y l is H K IH]; constructor; [apply E, H|exact IH]. Qed.
  Lemma comp_match_mono L L' c d : extends L L' -> comp_match L c d -> comp_match L' c d.
  Proof.
    intros E. destruct c; cbn [comp_match]; try (intros H; exact H).
    1-3: intros (is & H & ->); exists is; split; [apply (labelled_mono L L' _ _ E H)|reflexivity].
    1-2: intros (i & H & ->); exists i; split; [apply E, H|reflexivity].
    intros (i & is & H & K & ->). exists i, is. split; [apply E, H|]. split; [apply (labelled_mono L L' _ _ E K)|reflexivity].
  Qed.
  Lemma comps_match_mono L L' cs ds : extends L L' -> Forall2 (comp_match L) cs ds -> Forall2 (comp_match L') cs ds.
  Proof. intros E H. induction H as [|c d cs ds H K IH]; constructor; [apply (comp_match_mono L L' c d E H)|exact IH]. Qed.
  Lemma reifier_match_mono L L' a rf : extends L L' -> reifier_match L a rf -> reifier_match L' a rf.
  Proof.
    intros E. unfold reifier_match. destruct (a_path a) as [p|]; [|intros H; exact H]. destruct (a_reifier a) as [[rq ts]|]; [|intros H; exact H].
    intros (n & is & -> & H & ->). exists n, is. split; [reflexivity|]. split; [apply (labelled_mono L L' _ _ E H)|reflexivity].
  Qed.
  Lemma shape_match_mono L L' id a s ts : extends L L' -> shape_match L id a s ts -> shape_match L' id a s ts.
  Proof.
    intros E [M1 M2 M3 M4 M5 M6 M7 M8 M9]. constructor; try assumption.
    - apply (comps_match_mono L L' _ _ E M3).
    - apply (labelled_mono L L' _ _ E M4).
    - apply (reifier_match_mono L L' _ _ E M8).
  Qed.

  (** ** runs *)
  Record inv (st : state) : Prop := {
    i_names : NoDup (map fst (s_labels st));
    i_nums : NoDup (map snd (s_labels st));
    i_known : incl (map fst (s_labels st)) (map fst A);
    i_below : forall t i, In (t, i) (s_labels st) -> i < s_next st;
    i_shapes : NoDup (map fst (s_shapes st));
    i_idx : forall i s, In (i, s) (s_shapes st) -> In i (map snd (s_labels st)) }.
  Definition done (st : state) (e : nat * (shape * list target)) : Prop :=
    exists id a, find_shape A id = Some a /\ label_of (s_labels st) id = Some (fst e) /\ shape_match (s_labels st) id a (fst (snd e)) (snd (snd e)).
  Record step (st st' : state) : Prop := {
    st_inv : inv st';
    st_ext : extends (s_labels st) (s_labels st');
    st_next : s_next st <= s_next st';
    st_old : incl (s_shapes st) (s_shapes st');
    st_new : forall e, In e (s_shapes st') -> In e (s_shapes st) \/ (s_next st <= fst e /\ done st' e);
    st_all : forall t i, label_of (s_labels st') t = Some i -> label_of (s_labels st) t = Some i \/ exists s, In (i, s) (s_shapes st') }.
  Lemma step_refl st : inv st -> step st st.
  Proof. intros I. constructor; auto; [intros t i H; exact H|intros x H; exact H]. Qed.
  Lemma done_mono st st' e : extends (s_labels st) (s_labels st') -> done st e -> done st' e.
  Proof. intros E (id & a & F & H & M). exists id, a. split; [exact F|]. split; [apply E, H|]. apply (shape_match_mono _ _ _ _ _ _ E M). Qed.
  Lemma step_trans a b c : step a b -> step b c -> step a c.
  Proof.
    intros [I1 E1 N1 O1 W1 L1] [I2 E2 N2 O2 W2 L2]. constructor.
    - exact I2.
    - intros t i H. apply E2, E1, H.
    - lia.
    - intros x H. apply O2, O1, H.
    - intros e H. destruct (W2 e H) as [K|[K D]]; [|right; split; [lia|exact D]]. destruct (W1 e K) as [J|[J D]]; [left; exact J|]. right. split; [exact J|]. apply (done_mono b c e E2 D).
    - intros t i H. destruct (L2 t i H) as [K|K]; [|right; exact K]. destruct (L1 t i K) as [J|[s J]]; [left; exact J|]. right. exists s. apply O2, J.
  Qed.

  Definition todo (st : state) : nat := length (filter (fun t => match label_of (s_labels st) t with None => true | Some _ => false end) (map fst A)).
  Lemma todo_le L L' (l : list term) : extends L L' ->
    length (filter (fun t => match label_of L' t with None => true | Some _ => false end) l) <=
    length (filter (fun t => match label_of L t with None => true | Some _ => false end) l).
  Proof.
    intros E. induction l as [|t l IH]; cbn [filter length]; [lia|]. destruct (label_of L t) as [i|] eqn:H.
    - rewrite (E t i H). exact IH.
    - destruct (label_of L' t); cbn [length]; lia.
  Qed.
  Lemma todo_lt L L' (l : list term) t i : extends L L' -> In t l -> label_of L t = None -> label_of L' t = Some i ->
    length (filter (fun t => match label_of L' t with None => true | Some _ => false end) l) <
    length (filter (fun t => match label_of L t with None => true | Some _ => false end) l).
  Proof.
    intros E. induction l as [|u l IH]; intros I N S; [destruct I|]. cbn [filter]. destruct I as [->|I].
    - rewrite N, S. cbn [length]. pose proof (todo_le L L' l E). lia.
    - specialize (IH I N S). destruct (label_of L u) as [j|] eqn:H; [rewrite (E u j H); exact IH|]. destruct (label_of L' u); cbn [length]; lia.
  Qed.
  Lemma todo_step st st' : step st st' -> todo st' <= todo st.
  Proof. intros S. apply todo_le. apply S. Qed.

  (** [m] run in [st] does not fail unless [bad], and then [Q] holds *)
  Definition runs {X} (fuel : nat) (bad : Prop) (m : St X) (Q : list (term * nat) -> X -> Prop) : Prop :=
    forall st, inv st -> todo st <= fuel ->
      match m st with
      | Ok (x, st') => step st st' /\ Q (s_labels st') x
      | Err => bad
      | _ => False
      end.
  Lemma runs_ret {X} fuel bad (x : X) (Q : list (term * nat) -> X -> Prop) : (forall L, Q L x) -> runs fuel bad (sret x) Q.
  Proof. intros H st I F. cbn. split; [apply step_refl, I|apply H]. Qed.
  Lemma runs_lift {X} fuel (bad : Prop) (r : res X) (Q : list (term * nat) -> X -> Prop) : match r with Ok x => forall L, Q L x | Err => bad | _ => False end -> runs fuel bad (slift r) Q.
  Proof. intros H st I F. unfold slift. destruct r as [x| | |]; cbn [bind]; try exact H. split; [apply step_refl, I|apply H]. Qed.
  Lemma runs_bind {X Y} fuel bad (m : St X) (f : X -> St Y) (P : list (term * nat) -> X -> Prop) (Q : list (term * nat) -> Y -> Prop) :
    runs fuel bad m P -> (forall L L' x, extends L L' -> P L x -> P L' x) ->
    (forall x, runs fuel bad (f x) (fun L y => P L x -> Q L y)) -> runs fuel bad (sbind m f) Q.
  Proof.
    intros M Mono K st I F. unfold sbind. specialize (M st I F). destruct (m st) as [[x st1]| | |]; cbn [bind fst snd]; try exact M. destruct M as [S1 P1].
    assert (F1 : todo st1 <= fuel) by (pose proof (todo_step _ _ S1); lia). specialize (K x st1 (st_inv _ _ S1) F1).
    destruct (f x st1) as [[y st2]| | |]; try exact K. destruct K as [S2 Q2]. split; [apply (step_trans _ _ _ S1 S2)|]. apply Q2. apply (Mono _ _ _ (st_ext _ _ S2) P1).
  Qed.
  Lemma runs_map {X Y} fuel (bad : Prop) (f : X -> St Y) (P : list (term * nat) -> X -> Y -> Prop) l :
    (forall x, In x l -> runs fuel bad (f x) (fun L y => P L x y)) -> (forall L L' x y, extends L L' -> P L x y -> P L' x y) ->
    runs fuel bad (smap f l) (fun L ys => Forall2 (P L) l ys).
  Proof.
    intros H Mono. induction l as [|x l IH]; cbn [smap].
    - apply runs_ret. intros L. constructor.
    - apply (runs_bind fuel bad _ _ (fun L y => P L x y)); [apply H; left; reflexivity|intros L L' y; apply Mono|]. intros y.
      apply (runs_bind fuel bad _ _ (fun L ys => Forall2 (P L) l ys)).
      + apply IH. intros z Z. apply H. right. exact Z.
      + intros L L' ys E K. clear - Mono E K. induction K as [|u w l0 ys0 H0 K0 IH0]; constructor; [apply (Mono L L' _ _ E H0)|exact IH0].
      + intros ys. apply runs_ret. intros L K J. constructor; assumption.
  Qed.
  Lemma runs_weaken {X} fuel (bad bad' : Prop) (m : St X) (Q Q' : list (term * nat) -> X -> Prop) :
    runs fuel bad m Q -> (bad -> bad') -> (forall L x, Q L x -> Q' L x) -> runs fuel bad' m Q'.
  Proof.
    intros H B K st I F. specialize (H st I F). destruct (m st) as [[x st']| | |]; try exact H; [|apply B, H]. destruct H as [S1 H]. split; [exact S1|apply K, H].
  Qed.

  (** ** a badly written schema *)
  Definition bad_ref (t : term) : Prop := find_shape A t = None.
  Definition bad_comp (c : acomp) : Prop := ~ readable regex c \/ exists t, In t (acomp_refs c) /\ bad_ref t.
  Definition bad_shape (a : ashape) : Prop :=
    (exists c, In c (a_comps a) /\ bad_comp c) \/ (exists t, In t (a_props a ++ reifier_refs a) /\ bad_ref t) \/
    allowed_properties A a = Err \/ (exists p r, a_path a = Some p /\ a_reifier a = Some r /\ forall n, p <> PPred n).
  (** some shape that is not fine *)
  Definition bad : Prop := exists id a, find_shape A id = Some a /\ bad_shape a.

  Lemma convert_values_cases vs : (exists ts, convert_values vs = Ok ts) \/ (convert_values vs = Err /\ exists v, In v vs /\ ~ full_value v).
  Proof.
    induction vs as [|v vs IH]; cbn [convert_values]; [left; eexists; reflexivity|].
    destruct v as [[n|n]|n]; cbn [convert_value convert_iri_ref bind].
    - destruct IH as [[ts ->]|(-> & v & V & W)]; cbn [bind]; [left; eexists; reflexivity|]. right. split; [reflexivity|]. exists v. split; [right; exact V|exact W].
    - right. split; [reflexivity|]. exists (VIri (IriPrefixed n)). split; [left; reflexivity|]. intros (k & K). discriminate.
    - destruct IH as [[ts ->]|(-> & v & V & W)]; cbn [bind]; [left; eexists; reflexivity|]. right. split; [reflexivity|]. exists v. split; [right; exact V|exact W].
  Qed.
  Lemma convert_value_cases v : (exists t, convert_value v = Ok t) \/ (convert_value v = Err /\ ~ full_value v).
  Proof.
    destruct v as [[n|n]|n]; cbn; [left; eexists; reflexivity| |left; eexists; reflexivity]. right. split; [reflexivity|]. intros (k & K). discriminate.
  Qed.
  Lemma defined_properties_cases ps : (exists l, defined_properties A ps = Ok l) \/
    (defined_properties A ps = Err /\ exists p, In p ps /\ (find_shape A p = None \/ exists a, find_shape A p = Some a /\ a_path a = None)).
  Proof.
    induction ps as [|p ps IH]; cbn [defined_properties]; [left; eexists; reflexivity|].
    destruct (find_shape A p) as [a|] eqn:E.
    - destruct (a_path a) as [q|] eqn:Q.
      + assert (X : (exists l, defined_properties A ps = Ok l) \/ (defined_properties A ps = Err /\ exists p0, In p0 (p :: ps) /\ (find_shape A p0 = None \/ exists a, find_shape A p0 = Some a /\ a_path a = None)))
          by (destruct IH as [H|(H & p0 & I0 & H0)]; [left; exact H|right; split; [exact H|]; exists p0; split; [right; exact I0|exact H0]]).
        destruct q; try exact X. destruct X as [[l ->]|(-> & X)]; cbn [bind]; [left; eexists; reflexivity|right; split; [reflexivity|exact X]].
      + right. split; [reflexivity|]. exists p. split; [left; reflexivity|]. right. exists a. auto.
    - right. split; [reflexivity|]. exists p. split; [left; reflexivity|]. left. exact E.
  Qed.
  Lemma closed_component_spec cs b ig : closed_component cs = (b, ig) -> b = true ->
    exists l1 l2, cs = l1 ++ AClosed true ig :: l2 /\ forall b' l, ~ In (AClosed b' l) l1.
  Proof.
    induction cs as [|c cs IH]; cbn [closed_component]; intros H T; [injection H as <- _; discriminate|].
    assert (X : match c with AClosed _ _ => False | _ => True end -> closed_component cs = (b, ig) -> exists l1 l2, c :: cs = l1 ++ AClosed true ig :: l2 /\ forall b' l, ~ In (AClosed b' l) l1).
    { intros NC E. destruct (IH E T) as (l1 & l2 & -> & K). exists (c :: l1), l2. split; [reflexivity|]. intros b' l [J|J]; [subst c; exact NC|apply (K b' l J)]. }
    destruct c; try (apply X; [exact Logic.I|exact H]). injection H as -> ->. subst b. exists [], cs. split; [reflexivity|]. intros b' l [].
  Qed.
  Lemma closed_component_first l1 ig b l2 : (forall b' l, ~ In (AClosed b' l) l1) -> closed_component (l1 ++ AClosed b ig :: l2) = (b, ig).
  Proof.
    induction l1 as [|c l1 IH]; intros H; [reflexivity|]. assert (K : closed_component (l1 ++ AClosed b ig :: l2) = (b, ig)) by (apply IH; intros b' l J; apply (H b' l); right; exact J).
    destruct c; try exact K. exfalso. eapply H. left. reflexivity.
  Qed.
  Lemma allowed_cases a : (exists l, allowed_properties A a = Ok l) \/ (allowed_properties A a = Err /\ closes a /\
    exists p, In p (a_props a) /\ (find_shape A p = None \/ exists b, find_shape A p = Some b /\ a_path b = None)).
  Proof.
    unfold allowed_properties. destruct (closed_component (a_comps a)) as [b ig] eqn:E. destruct b; [|left; eexists; reflexivity].
    destruct (defined_properties_cases (a_props a)) as [[l ->]|(-> & p & P & Q)]; cbn [bind]; [left; eexists; reflexivity|].
    right. split; [reflexivity|]. split; [|exists p; auto]. destruct (closed_component_spec _ _ _ E eq_refl) as (l1 & l2 & K & N). exists l1, ig, l2. auto.
  Qed.

  Lemma label_run_mono L L' t i : extends L L' -> labelled L t i -> labelled L' t i.
  Proof. intros E H. apply E, H. Qed.

  Section Rec.
    Variable fuel : nat.
    Variable rec : term -> St nat.
    Hypothesis Rec : forall t, runs fuel (bad_ref t \/ bad) (rec t) (fun L i => labelled L t i).

    Lemma rec_run (B : Prop) t : (bad_ref t -> B) -> (bad -> B) -> runs fuel B (rec t) (fun L i => labelled L t i).
    Proof. intros H K. eapply runs_weaken; [apply Rec|intros [J|J]; auto|auto]. Qed.
    Lemma rec_map (B : Prop) l : (forall t, In t l -> bad_ref t -> B) -> (bad -> B) -> runs fuel B (smap rec l) (fun L is => Forall2 (labelled L) l is).
    Proof.
      intros H K. apply (runs_map fuel B rec labelled l).
      - intros t T. apply rec_run; [apply H, T|exact K].
      - intros L L' t i E. apply label_run_mono, E.
    Qed.
    Lemma iri_run r : runs fuel (bad \/ ~ full r) (slift (convert_iri_ref r)) (fun L n => r = IriFull n).
    Proof.
      apply runs_lift. destruct r as [n|n]; cbn [convert_iri_ref]; [reflexivity|]. right. intros (k & K). discriminate.
    Qed.

    Lemma comp_run c : runs fuel (bad_comp c \/ bad) (compile_comp regex rec c) (fun L d => comp_match L c d).
    Proof.
      destruct c as [c|r|k|k|z|z|b|r|r|b r|l|l|l|t|t|b ig|v|vs|t qmin qmax d sib|b]; cbn [compile_comp comp_match].
      - apply runs_ret. reflexivity.
      - eapply runs_bind; [eapply runs_weaken; [apply iri_run|intros [H|H]; [right; exact H|left; left; exact H]|intros L x H; exact H]|intros; assumption|].
        intros n. apply runs_ret. intros L H. exists n. auto.
      - destruct (regex k) eqn:E; [apply runs_ret; auto|]. apply runs_lift. left. left. cbn. congruence.
      - apply runs_ret. reflexivity.
      - apply runs_ret. reflexivity.
      - apply runs_ret. reflexivity.
      - apply runs_ret. reflexivity.
      - eapply runs_bind; [eapply runs_weaken; [apply iri_run|intros [H|H]; [right; exact H|left; left; exact H]|intros L x H; exact H]|intros; assumption|].
        intros n. apply runs_ret. intros L H. exists n. auto.
      - eapply runs_bind; [eapply runs_weaken; [apply iri_run|intros [H|H]; [right; exact H|left; left; exact H]|intros L x H; exact H]|intros; assumption|].
        intros n. apply runs_ret. intros L H. exists n. auto.
      - eapply runs_bind; [eapply runs_weaken; [apply iri_run|intros [H|H]; [right; exact H|left; left; exact H]|intros L x H; exact H]|intros; assumption|].
        intros n. apply runs_ret. intros L H. exists n. auto.
      - eapply runs_bind; [apply rec_map; [intros t T B; left; right; exists t; cbn; auto|auto]|intros L L' is E; apply labelled_mono, E|]. intros is. apply runs_ret. intros L H. exists is. auto.
      - eapply runs_bind; [apply rec_map; [intros t T B; left; right; exists t; cbn; auto|auto]|intros L L' is E; apply labelled_mono, E|]. intros is. apply runs_ret. intros L H. exists is. auto.
      - eapply runs_bind; [apply rec_map; [intros t T B; left; right; exists t; cbn; auto|auto]|intros L L' is E; apply labelled_mono, E|]. intros is. apply runs_ret. intros L H. exists is. auto.
      - eapply runs_bind; [apply rec_run; [intros B; left; right; exists t; cbn; auto|auto]|intros L L' i E; apply label_run_mono, E|]. intros i. apply runs_ret. intros L H. exists i. auto.
      - eapply runs_bind; [apply rec_run; [intros B; left; right; exists t; cbn; auto|auto]|intros L L' i E; apply label_run_mono, E|]. intros i. apply runs_ret. intros L H. exists i. auto.
      - apply runs_ret. reflexivity.
      - eapply (runs_bind _ _ _ _ (fun L t => convert_value v = Ok t)); [apply runs_lift|intros; assumption|].
        + destruct (convert_value_cases v) as [[t ->]|[-> H]]; [reflexivity|]. left. left. exact H.
        + intros t. apply runs_ret. intros L H. exists t. auto.
      - eapply (runs_bind _ _ _ _ (fun L ts => convert_values vs = Ok ts)); [apply runs_lift|intros; assumption|].
        + destruct (convert_values_cases vs) as [[ts ->]|(-> & v & V & W)]; [reflexivity|]. left. left. intros H. exact (W (H v V)).
        + intros t. apply runs_ret. intros L H. exists t. auto.
      - eapply runs_bind; [apply (rec_run _ t); [intros B; left; right; exists t; cbn; auto|auto]|intros L L' i E; apply label_run_mono, E|]. intros i.
        eapply runs_bind; [apply (rec_map _ sib); [intros u U B; left; right; exists u; cbn; auto|auto]|intros L L' is E; apply labelled_mono, E|]. intros is.
        apply runs_ret. intros L H K. exists i, is. auto.
      - apply runs_ret. reflexivity.
    Qed.

    Lemma reifier_run a : runs fuel (bad_shape a \/ bad) (reifier_info rec a) (fun L rf => reifier_match L a rf).
    Proof.
      unfold reifier_info, reifier_match. destruct (a_path a) as [p|] eqn:P; [|apply runs_ret; reflexivity]. destruct (a_reifier a) as [[rq ts]|] eqn:R; [|apply runs_ret; reflexivity].
      eapply runs_bind; [apply (rec_map _ ts); [|auto]|intros L L' is E; apply labelled_mono, E|].
      - intros t T B. left. right. left. exists t. split; [|exact B]. apply in_or_app. right. unfold reifier_refs. rewrite P, R. exact T.
      - intros is. assert (K : (forall n, p <> PPred n) -> bad_shape a \/ bad) by (intros N; left; right; right; right; exists p, (rq, ts); auto).
        destruct p as [n| | | | | |]; try (apply runs_lift; apply K; intros m; discriminate). apply runs_ret. intros L H. exists n, is. auto.
    Qed.

    Lemma shape_run id a : runs fuel (bad_shape a \/ bad) (compile_shape regex A rec id a) (fun L r => shape_match L id a (fst r) (snd r)).
    Proof.
      unfold compile_shape.
      eapply runs_bind; [apply (runs_map _ _ _ comp_match (a_comps a)); [|intros L L' c d E; apply comp_match_mono, E]|intros L L' cs E; apply comps_match_mono, E|].
      { intros c C. eapply runs_weaken; [apply comp_run|intros [H|H]; [left; left; exists c; auto|right; exact H]|intros L d H; exact H]. }
      intros cs. eapply runs_bind; [apply (rec_map _ (a_props a)); [|auto]|intros L L' is E; apply labelled_mono, E|].
      { intros t T B. left. right. left. exists t. split; [apply in_or_app; left; exact T|exact B]. }
      intros ps. eapply (runs_bind _ _ _ _ (fun L l => allowed_properties A a = Ok l)); [apply runs_lift|intros; assumption|].
      { destruct (allowed_cases a) as [[l ->]|(-> & H)]; [reflexivity|]. left. unfold bad_shape. right. right. left.
        destruct (allowed_cases a) as [[l E]|(E & _)]; [|exact E]. exfalso. destruct H as [(l1 & ig & l2 & K & N) (p & P & Q)]. unfold allowed_properties in E. rewrite K, (closed_component_first l1 ig true l2 N) in E.
        destruct (defined_properties_cases (a_props a)) as [[l' D]|(D & _)]; [|rewrite D in E; discriminate]. clear -P Q D. revert l' D. induction (a_props a) as [|x ps IH]; intros l' D; [destruct P|]. cbn [defined_properties] in D. destruct P as [->|P].
        - destruct Q as [Q|(b & Q & R)]; rewrite Q in D; [discriminate|]. rewrite R in D. discriminate.
        - destruct (find_shape A x) as [b|]; [|discriminate]. destruct (a_path b) as [q|]; [|discriminate]. destruct q; try exact (IH P _ D). destruct (defined_properties A ps); try discriminate. exact (IH P _ eq_refl). }
      intros allowed. eapply runs_bind; [apply reifier_run|intros L L' rf E; apply reifier_match_mono, E|].
      intros rf. apply runs_ret. intros L M4 M3 M2 M1. cbn [fst snd]. constructor; cbn; auto.
    Qed.
  End Rec.

  Definition fresh (st : state) (id : term) : state := mkState ((id, s_next st) :: s_labels st) (s_shapes st) (S (s_next st)).
  Lemma fresh_inv st id : inv st -> label_of (s_labels st) id = None -> In id (map fst A) -> inv (fresh st id).
  Proof.
    intros [I1 I2 I3 I4 I5 I6] N K. constructor; cbn.
    - constructor; [apply label_of_none, N|exact I1].
    - constructor; [|exact I2]. intros H. apply in_map_iff in H. destruct H as ([t j] & E & H). cbn in E. subst j. specialize (I4 _ _ H). lia.
    - intros x [<-|H]; [exact K|apply I3, H].
    - intros t j [H|H]; [injection H as -> ->; lia|]. specialize (I4 _ _ H). lia.
    - exact I5.
    - intros j s H. right. apply (I6 j s H).
  Qed.
  Lemma fresh_ext st id : label_of (s_labels st) id = None -> extends (s_labels st) (s_labels (fresh st id)).
  Proof. intros N t i H. cbn. destruct (term_eqb_spec t id) as [->|K]; [congruence|exact H]. Qed.

  Lemma register_run fuel : forall given id, (forall a, given = Some a -> find_shape A id = Some a) ->
    runs fuel (bad_ref id \/ bad) (register regex A fuel given id) (fun L i => labelled L id i).
  Proof.
    induction fuel as [|fuel IH]; intros given id G st I F.
    - cbn [register]. assert (EQ : match given with Some a => Some a | None => find_shape A id end = find_shape A id) by (destruct given as [a|]; [symmetry; apply G; reflexivity|reflexivity]).
      rewrite EQ. destruct (find_shape A id) as [a|] eqn:E; [|left; exact E]. destruct (label_of (s_labels st) id) as [i|] eqn:L; [split; [apply step_refl, I|exact L]|].
      exfalso. assert (K : In id (map fst A)) by (apply find_shape_some in E; apply (in_map fst) in E; exact E).
      pose proof (todo_lt (s_labels st) (s_labels (fresh st id)) (map fst A) id (s_next st) (fresh_ext st id L) K L) as H. unfold todo in F. cbn in H. destruct (term_eqb_spec id id) as [_|X]; [|congruence]. specialize (H eq_refl). lia.
    - cbn [register]. assert (EQ : match given with Some a => Some a | None => find_shape A id end = find_shape A id) by (destruct given as [a|]; [symmetry; apply G; reflexivity|reflexivity]).
      rewrite EQ. destruct (find_shape A id) as [a|] eqn:E; [|left; exact E]. destruct (label_of (s_labels st) id) as [i|] eqn:L; [split; [apply step_refl, I|exact L]|].
      assert (K : In id (map fst A)) by (apply find_shape_some in E; apply (in_map fst) in E; exact E).
      fold (fresh st id). pose proof (fresh_inv st id I L K) as I1. pose proof (fresh_ext st id L) as X1.
      assert (LL : label_of (s_labels (fresh st id)) id = Some (s_next st)) by (cbn; destruct (term_eqb_spec id id) as [_|X]; [reflexivity|congruence]).
      assert (F1 : todo (fresh st id) <= fuel).
      { pose proof (todo_lt (s_labels st) (s_labels (fresh st id)) (map fst A) id (s_next st) X1 K L LL) as H. unfold todo in *. lia. }
      pose proof (shape_run fuel (register regex A fuel None) (fun t => IH None t ltac:(discriminate)) id a (fresh st id) I1 F1) as R.
      destruct (compile_shape regex A (register regex A fuel None) id a (fresh st id)) as [[[s ts] st2]| | |]; cbn [bind fst snd]; try exact R.
      + destruct R as [S2 M]. cbn [fst snd] in M. destruct S2 as [J2 E2 N2 O2 W2 L2]. cbn in N2. split; [|apply E2, LL]. destruct J2 as [J1 J2 J3 J4 J5 J6].
        assert (Lid : label_of (s_labels st2) id = Some (s_next st)) by (apply E2, LL).
        constructor.
        * constructor; cbn; auto.
          -- constructor; [|exact J5]. intros H. apply in_map_iff in H. destruct H as ([j r] & Ej & H). cbn in Ej. subst j. destruct (W2 _ H) as [Q|[Q _]].
             ++ cbn in Q. pose proof (i_idx st I _ _ Q) as Z; apply in_map_iff in Z; destruct Z as ([t j] & Ej & Z); cbn in Ej; subst j; pose proof (i_below st I _ _ Z); lia.
             ++ cbn in Q. lia.
          -- intros j r [H|H]; [injection H as <- _; apply label_of_some in Lid; apply (in_map snd) in Lid; exact Lid|apply (J6 j r H)].
        * intros t j H. cbn. apply E2, X1, H.
        * cbn. lia.
        * cbn. intros e H. right. apply O2. exact H.
        * cbn. intros e [<-|H].
          -- right. split; [cbn; lia|]. exists id, a. cbn. split; [exact E|]. split; [exact Lid|exact M].
          -- destruct (W2 e H) as [Q|[Q D]]; [left; exact Q|]. right. cbn in Q. split; [lia|]. destruct D as (id' & a' & D1 & D2 & D3). exists id', a'. cbn. auto.
        * cbn. intros t j H. destruct (L2 t j H) as [Q|[r Q]].
          -- cbn in Q. destruct (term_eqb_spec t id) as [->|Z]; [|left; exact Q]. injection Q as <-. right. eexists. left. reflexivity.
          -- right. exists r. right. exact Q.
      + destruct R as [R|R]; [right; exists id, a; auto|right; exact R].
  Qed.

  Lemma start_inv : inv start_state.
  Proof.
    split; cbn.
    1, 2, 5: apply NoDup_nil.
    - intros x [].
    - intros t i [].
    - intros i s [].
  Qed.
  Lemma todo_start : todo start_state = length A.
  Proof. unfold todo. cbn. rewrite <- (map_length fst). induction (map fst A) as [|x l IH]; cbn; [reflexivity|]. f_equal. exact IH. Qed.

  Lemma register_all_run fuel l : (forall id a, In (id, a) l -> find_shape A id = Some a) -> forall st, inv st -> todo st <= fuel ->
    match register_all regex A fuel l st with
    | Ok st' => step st st' /\ forall id a, In (id, a) l -> exists i, label_of (s_labels st') id = Some i
    | Err => bad
    | _ => False
    end.
  Proof.
    induction l as [|[id a] l IH]; intros K st I F; cbn [register_all].
    - split; [apply step_refl, I|]. intros id a [].
    - pose proof (register_run fuel (Some a) id (fun b E => eq_trans (K id a (or_introl eq_refl)) E) st I F) as R.
      destruct (register regex A fuel (Some a) id st) as [[i st1]| | |]; cbn [bind snd]; try exact R.
      + destruct R as [S1 L1]. assert (F1 : todo st1 <= fuel) by (pose proof (todo_step _ _ S1); lia).
        specialize (IH (fun x y H => K x y (or_intror H)) st1 (st_inv _ _ S1) F1). destruct (register_all regex A fuel l st1) as [st2| | |]; try exact IH.
        destruct IH as [S2 H]. split; [apply (step_trans _ _ _ S1 S2)|]. intros x y [J|J]; [|apply (H x y J)]. injection J as -> ->. exists i. apply (st_ext _ _ S2), L1.
      + destruct R as [R|R]; [|exact R]. unfold bad_ref in R. rewrite (K id a (or_introl eq_refl)) in R. discriminate.
  Qed.

  (** ** the compiled schema *)
  Record compiled (st : state) : Prop := {
    c_inv : inv st;
    c_done : forall e, In e (s_shapes st) -> done st e;
    c_labels : forall t i, label_of (s_labels st) t = Some i -> exists s, In (i, s) (s_shapes st);
    c_all : forall id a, In (id, a) A -> exists i, label_of (s_labels st) id = Some i }.
  Lemma register_all_ok fuel : distinct A -> length A <= fuel ->
    match register_all regex A fuel A start_state with Ok st => compiled st | Err => bad | _ => False end.
  Proof.
    intros D F. pose proof (register_all_run fuel A (fun id a H => find_shape_in A id a D H) start_state start_inv ltac:(rewrite todo_start; exact F)) as R.
    destruct (register_all regex A fuel A start_state) as [st| | |]; try exact R. destruct R as [[S1 S2 S3 S4 S5 S6] K]. constructor; auto.
    - intros e H. destruct (S5 e H) as [[]|[_ Q]]. exact Q.
    - intros t i H. destruct (S6 t i H) as [Q|Q]; [discriminate|exact Q].
  Qed.

  Section Compiled.
    Variable st : state.
    Hypothesis D : distinct A.
    Hypothesis C : compiled st.
    Notation L := (s_labels st).

    Lemma get_shape_in i s : get_shape (ir_schema st) i = Some s <-> exists ts, In (i, (s, ts)) (s_shapes st).
    Proof.
      pose proof (i_shapes st (c_inv st C)) as N. unfold ir_schema. revert N. generalize (s_shapes st) as l. induction l as [|[j [s' ts']] l IH]; intros N; cbn.
      - split; [discriminate|intros (ts & [])].
      - cbn in N. inversion N as [|x l' N1 N2 E]; subst. destruct (Nat.eqb_spec i j) as [->|K].
        + split.
          * intros H. injection H as ->. exists ts'. left. reflexivity.
          * intros (ts & [H|H]); [injection H as -> _; reflexivity|]. exfalso. apply N1. apply (in_map fst) in H. exact H.
        + rewrite (IH N2). split; intros (ts & H); exists ts; [right; exact H|]. destruct H as [H|H]; [injection H as -> _ _; congruence|exact H].
    Qed.
    Lemma shape_of id a : In (id, a) A -> exists i s, label_of L id = Some i /\ get_shape (ir_schema st) i = Some s /\ shape_match L id a s (a_targets a).
    Proof.
      intros H. destruct (c_all st C id a H) as (i & E). destruct (c_labels st C id i E) as ([s ts] & K). destruct (c_done st C _ K) as (id' & a' & F & E' & M). cbn [fst snd] in E', M.
      assert (id' = id) as -> by (apply (label_inj L id' id i (i_nums st (c_inv st C)) E' E)). rewrite (find_shape_in A id a D H) in F. injection F as <-.
      exists i, s. split; [exact E|]. split; [apply get_shape_in; exists ts; exact K|]. rewrite (m_targets _ _ _ _ _ M) in M. exact M.
    Qed.
    Lemma source_of i s : get_shape (ir_schema st) i = Some s -> exists id a, In (id, a) A /\ label_of L id = Some i /\ shape_match L id a s (a_targets a).
    Proof.
      intros H. apply get_shape_in in H. destruct H as (ts & H). destruct (c_done st C _ H) as (id & a & F & E & M). cbn [fst snd] in E, M.
      exists id, a. split; [apply find_shape_some, F|]. split; [exact E|]. rewrite (m_targets _ _ _ _ _ M) in M. exact M.
    Qed.
    Lemma label_known t i : label_of L t = Some i -> exists a, In (t, a) A.
    Proof.
      intros H. apply label_of_some in H. apply (in_map fst) in H. apply (i_known st (c_inv st C)) in H. apply in_map_iff in H. destruct H as ([u a] & E & H). cbn in E. subst u. exists a. exact H.
    Qed.

    (** *** no bad shapes *)
    Lemma labels_known l is : Forall2 (labelled L) l is -> forall t, In t l -> exists a, In (t, a) A.
    Proof. intros H. induction H as [|x i l is H K IH]; intros t T; [destruct T|]. destruct T as [<-|T]; [apply (label_known _ _ H)|apply IH, T]. Qed.
    Lemma comp_match_good c d : comp_match L c d -> readable regex c /\ forall t, In t (acomp_refs c) -> exists a, In (t, a) A.
    Proof.
      destruct c as [c|r|k|k|z|z|b|r|r|b r|l|l|l|t|t|b ig|v|vs|t qmin qmax dj sib|b]; cbn [comp_match readable acomp_refs]; intros H; (split; [|try (intros t' []; fail)]); try exact Logic.I.
      - destruct H as (n & -> & _). exists n. reflexivity.
      - apply H.
      - destruct H as (n & -> & _). exists n. reflexivity.
      - destruct H as (n & -> & _). exists n. reflexivity.
      - destruct H as (n & -> & _). exists n. reflexivity.
      - destruct H as (is & H & _). apply (labels_known _ _ H).
      - destruct H as (is & H & _). apply (labels_known _ _ H).
      - destruct H as (is & H & _). apply (labels_known _ _ H).
      - destruct H as (i & H & _). intros u [<-|[]]. apply (label_known _ _ H).
      - destruct H as (i & H & _). intros u [<-|[]]. apply (label_known _ _ H).
      - destruct H as (t & H & _). destruct v as [[n|n]|n]; cbn in *; [exists n; reflexivity|discriminate|exact Logic.I].
      - destruct H as (ts & H & _). clear -H. revert ts H. induction vs as [|v vs IH]; intros ts H w W; [destruct W|]. cbn [convert_values] in H. destruct (convert_value v) as [t| | |] eqn:V; try discriminate.
        cbn [bind] in H. destruct (convert_values vs) as [ts'| | |] eqn:E; try discriminate. destruct W as [<-|W]; [|apply (IH _ eq_refl w W)]. destruct v as [[n|n]|n]; cbn in *; [exists n; reflexivity|discriminate|exact Logic.I].
      - destruct H as (i & is & H & K & _). intros u [<-|U]; [apply (label_known _ _ H)|apply (labels_known _ _ K _ U)].
    Qed.
    Lemma Forall2_in_l {X Y} (R : X -> Y -> Prop) l m x : Forall2 R l m -> In x l -> exists y, In y m /\ R x y.
    Proof. intros H. induction H as [|a b l m H K IH]; intros I; [destruct I|]. destruct I as [<-|I]; [exists b; split; [left; reflexivity|exact H]|]. destruct (IH I) as (y & Y1 & Y2). exists y. split; [right; exact Y1|exact Y2]. Qed.
    Lemma Forall2_in_r {X Y} (R : X -> Y -> Prop) l m y : Forall2 R l m -> In y m -> exists x, In x l /\ R x y.
    Proof. intros H. induction H as [|a b l m H K IH]; intros I; [destruct I|]. destruct I as [<-|I]; [exists a; split; [left; reflexivity|exact H]|]. destruct (IH I) as (x & X1 & X2). exists x. split; [right; exact X1|exact X2]. Qed.

    Lemma defined_ok ps l : defined_properties A ps = Ok l -> (forall p, In p ps -> forall b, In (p, b) A -> a_path b <> None) /\
      forall n, In n l <-> exists id b, In id ps /\ In (id, b) A /\ a_path b = Some (PPred n).
    Proof.
      revert l. induction ps as [|p ps IH]; intros l H; cbn [defined_properties] in H.
      - injection H as <-. split; [intros p []|]. intros n. split; [intros []|intros (id & b & [] & _)].
      - destruct (find_shape A p) as [a|] eqn:E; [|discriminate]. destruct (a_path a) as [q|] eqn:Q; [|discriminate].
        assert (U : forall b, In (p, b) A -> b = a) by (intros b B; rewrite (find_shape_in A p b D B) in E; congruence).
        assert (X : forall l', defined_properties A ps = Ok l' -> (forall n, In n l <-> In n l' \/ q = PPred n) -> (forall p0, In p0 (p :: ps) -> forall b, In (p0, b) A -> a_path b <> None) /\
          (forall n, In n l <-> exists id b, In id (p :: ps) /\ In (id, b) A /\ a_path b = Some (PPred n))).
        { intros l' E' EL. destruct (IH l' E') as [I1 I2]. split.
          - intros p0 [<-|P] b B; [rewrite (U b B), Q; discriminate|apply (I1 p0 P b B)].
          - intros n. rewrite EL, I2. split.
            + intros [(id & b & H1 & H2)| ->]; [exists id, b; split; [right; exact H1|exact H2]|]. exists p, a. split; [left; reflexivity|]. split; [apply find_shape_some, E|exact Q].
            + intros (id & b & [<-|H1] & H2 & H3); [right; rewrite (U b H2), Q in H3; congruence|left; exists id, b; auto]. }
        destruct q as [n| | | | | |]; try (apply (X l H); intros m; split; [intros J; left; exact J|intros [J|J]; [exact J|discriminate]]; fail).
        destruct (defined_properties A ps) as [l'| | |] eqn:E'; try discriminate. cbn [bind] in H. injection H as <-. apply (X l' eq_refl). intros m. cbn. split; [intros [->|J]; auto|intros [J|J]; [auto|left; congruence]].
    Qed.

    Lemma compiled_good : well_written regex A.
    Proof.
      intros id a H. destruct (shape_of id a H) as (i & s & E & G & M). refine (conj _ (conj _ (conj _ _))).
      - intros j J. unfold arefs in J. apply in_app_or in J. destruct J as [J|J].
        + apply in_flat_map in J. destruct J as (c & C1 & C2). destruct (Forall2_in_l _ _ _ c (m_comps _ _ _ _ _ M) C1) as (d & _ & CM). apply (proj2 (comp_match_good c d CM) j C2).
        + apply in_app_or in J. destruct J as [J|J]; [apply (labels_known _ _ (m_props _ _ _ _ _ M) _ J)|]. pose proof (m_reifier _ _ _ _ _ M) as R. unfold reifier_match in R. unfold reifier_refs in J.
          destruct (a_path a); [|destruct J]. destruct (a_reifier a) as [[rq ts]|]; [|destruct J]. destruct R as (n & is & _ & R & _). apply (labels_known _ _ R _ J).
      - intros c C1. destruct (Forall2_in_l _ _ _ c (m_comps _ _ _ _ _ M) C1) as (d & _ & CM). apply (proj1 (comp_match_good c d CM)).
      - intros (l1 & ig & l2 & K & N) j b J B. pose proof (m_allowed _ _ _ _ _ M) as X. unfold allowed_properties in X. rewrite K, (closed_component_first l1 ig true l2 N) in X.
        destruct (defined_properties A (a_props a)) as [l| | |] eqn:DP; try discriminate. apply (proj1 (defined_ok _ _ DP) j J b B).
      - intros p r P R. pose proof (m_reifier _ _ _ _ _ M) as X. unfold reifier_match in X. rewrite P, R in X. destruct r as [rq ts]. destruct X as (n & is & -> & _). exists n. reflexivity.
    Qed.
  End Compiled.

  Lemma good_not_bad : distinct A -> well_written regex A -> ~ bad.
  Proof.
    intros D G (id & a & F & B). pose proof (find_shape_some _ _ _ F) as H. destruct (G id a H) as (G1 & G2 & G3 & G4).
    assert (R : forall t, In t (arefs a) -> ~ bad_ref t). { intros t T X. destruct (G1 t T) as (b & K). unfold bad_ref in X. rewrite (find_shape_in A t b D K) in X. discriminate. }
    destruct B as [(c & C & [B|(t & T & B)])|[(t & T & B)|[B|(p & r & P & Q & N)]]].
    - exact (B (G2 c C)).
    - apply (R t); [|exact B]. unfold arefs. apply in_or_app. left. apply in_flat_map. exists c. auto.
    - apply (R t); [|exact B]. unfold arefs. apply in_or_app. right. exact T.
    - destruct (allowed_cases a) as [[l E]|(_ & CL & p & P & Q)]; [congruence|]. destruct Q as [Q|(b & Q & X)].
      + apply (R p); [|exact Q]. unfold arefs. apply in_or_app. right. apply in_or_app. left. exact P.
      + apply (G3 CL p b P (find_shape_some _ _ _ Q) X).
    - destruct (G4 p r P Q) as (n & ->). apply (N n). reflexivity.
  Qed.
End Match.
