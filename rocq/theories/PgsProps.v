(** Properties of property graph schemas. *)
From Coq Require Import List Bool Arith ZArith NArith Sorted Permutation Lia.
Import ListNotations.
From Verif Require Import PgsModel PgsSpec PgsLemmas PgsMain.

(** ** C57: conditions and value types *)

(** A condition answers exactly where its comparisons make sense, and then answers right. *)
Theorem C57_check rx c v b :
  check rx c v = Ok b <-> typed rx c v /\ (b = true <-> sat rx c v).
Proof. apply check_ok. Qed.
Print Assumptions C57_check.

Theorem C57_types rx t vs : is_right (type_conforms rx t vs) = true <-> allows rx t vs.
Proof. apply type_conforms_ok. Qed.
Print Assumptions C57_types.

Theorem C57_specs rx s vs : is_right (type_conforms rx (to_value_type s) vs) = true <-> asks rx s vs.
Proof. rewrite type_conforms_ok. apply to_value_type_ok. Qed.
Print Assumptions C57_specs.

(** The order in which a hash set hands out its values has no part in it. *)
Theorem C57_order rx t vs ws :
  Permutation vs ws -> is_right (type_conforms rx t vs) = is_right (type_conforms rx t ws).
Proof.
  intro P. apply eq_iff_eq_true. rewrite !type_conforms_ok.
  assert (I : forall v, In v vs <-> In v ws).
  { intro v. split; apply Permutation_in; [exact P|now apply Permutation_sym]. }
  pose proof (Permutation_length P) as E.
  induction t as [|c|c|c|c|a IHa b IHb|a IHa b IHb|c]; cbn [allows]; try rewrite E; try tauto;
    split; intro H; try (destruct H as [F H]; split; [exact F|]); intros v Hv; apply H, I, Hv.
Qed.
Print Assumptions C57_order.

(** De Morgan and double negation hold, errors included. *)
Theorem C57_laws rx a b v :
  check rx (CNot (CAnd a b)) v = check rx (COr (CNot a) (CNot b)) v /\
  check rx (CNot (COr a b)) v = check rx (CAnd (CNot a) (CNot b)) v /\
  check rx (CNot (CNot a)) v = check rx a v.
Proof.
  cbn [check]. destruct (check rx a v) as [x|]; destruct (check rx b v) as [y|]; split; try split; try reflexivity;
    try (now rewrite negb_andb); try (now rewrite negb_orb); now rewrite negb_involutive.
Qed.
Print Assumptions C57_laws.

(** A value that satisfies one side of a disjunction is turned down when the other side
    compares with another kind of value, on whichever side it stands. *)
Theorem C57_or_refuted :
  exists a b v, forall rx, sat rx (COr a b) v /\ sat rx (COr b a) v /\
    is_right (type_conforms rx (TCond (COr a b)) [v]) = false /\
    is_right (type_conforms rx (TCond (COr b a)) [v]) = false.
Proof.
  exists (CGreaterThan (VInteger 5)), (CEquals (VString [97%N])), (VString [97%N]).
  intro rx. cbn. split; [now right|]. split; [now left|]. split; reflexivity.
Qed.
Print Assumptions C57_or_refuted.

Example C57_met : typed (fun _ _ => None) (CAnd (CGreaterThan (VInteger 17)) (CNot (CEquals (VInteger 20)))) (VInteger 18) /\
  check (fun _ _ => None) (CAnd (CGreaterThan (VInteger 17)) (CNot (CEquals (VInteger 20)))) (VInteger 18) = Ok true /\
  check (fun _ _ => None) (CAnd (CGreaterThan (VInteger 17)) (CNot (CEquals (VInteger 20)))) (VInteger 20) = Ok false /\
  check (fun _ _ => None) (CGreaterThan (VInteger 17)) (VString [97%N]) = Err TypeMismatch /\
  allows (fun _ _ => None) (TIntersection (TInteger One) (TCond (CGreaterThan (VInteger 17)))) [VInteger 18].
Proof.
  split; [cbn; split; [constructor|exact Logic.I]|]. split; [reflexivity|]. split; [reflexivity|]. split; [reflexivity|].
  apply type_conforms_ok. reflexivity.
Qed.

(** ** C58: record types *)

Theorem C58_conforms rx t r :
  good_record r -> (is_right (rt_conforms rx t r) = true <-> satisfies rx t r).
Proof. apply rt_conforms_ok. Qed.
Print Assumptions C58_conforms.

Lemma part_in r t k vs : In (k, vs) (part r t) <-> In (k, vs) r /\ In k (map fst (rt_map t)).
Proof.
  unfold part. rewrite filter_In. cbn [fst]. apply and_iff_compat_l. apply memb_in.
Qed.

(** A record is of the combination of two closed types exactly when every key is of one of
    the two, and the part of the record that each type speaks of is of that type. *)
Theorem C58_combine_partial rx a b r :
  good_rtype a -> good_rtype b -> good_record r -> rt_open a = false -> rt_open b = false ->
  (satisfies rx (rt_combine a b) r <->
   (forall k, has r k -> In k (map fst (rt_map a)) \/ In k (map fst (rt_map b))) /\
   satisfies rx a (part r a) /\ satisfies rx b (part r b)).
Proof.
  intros Ga Gb Gr Oa Ob.
  pose proof (rt_combine_good a b) as Gc.
  assert (LK : forall k vt, In (k, vt) (rt_map (rt_combine a b)) <->
     match lookup (rt_map a) k, lookup (rt_map b) k with
     | Some t, Some u => TIntersection t u = vt
     | Some t, None => t = vt
     | None, Some u => u = vt
     | None, None => False
     end).
  { intros k vt. rewrite <- (lookup_nodup _ k vt Gc), rt_combine_lookup by assumption.
    destruct (lookup (rt_map a) k), (lookup (rt_map b) k); split; try tauto; congruence. }
  assert (KEYS : forall k, (exists vt, In (k, vt) (rt_map (rt_combine a b))) <->
                  In k (map fst (rt_map a)) \/ In k (map fst (rt_map b))).
  { intro k. assert (D : forall m : list (name * vtype), In k (map fst m) <-> lookup m k <> None).
    { intro m. rewrite lookup_none. destruct (in_dec Nat.eq_dec k (map fst m)); tauto. }
    rewrite !D. split.
    - intros [vt H]. apply LK in H. destruct (lookup (rt_map a) k); [left; discriminate|].
      destruct (lookup (rt_map b) k); [right; discriminate|tauto].
    - intro H. destruct (lookup (rt_map a) k) as [t|] eqn:Ea; destruct (lookup (rt_map b) k) as [u|] eqn:Eb;
        [exists (TIntersection t u)|exists t|exists u|destruct H; congruence]; apply LK; rewrite Ea, Eb; reflexivity. }
  assert (CL : forall t, rt_open t = false -> good_rtype t ->
     (satisfies rx t (part r t) <-> forall k vt, In (k, vt) (rt_map t) -> exists vs, In (k, vs) r /\ allows rx vt vs)).
  { intros t Ot Gt. split.
    - intros [H _] k vt Hk. destruct (H k vt Hk) as [vs [Hv A]]. apply part_in in Hv as [Hv _]. eauto.
    - intro H. split.
      + intros k vt Hk. destruct (H k vt Hk) as [vs [Hv A]]. exists vs. split; [|exact A].
        apply part_in. split; [exact Hv|]. now apply (in_map fst) in Hk.
      + right. intros k [vs Hv]. apply part_in in Hv as [_ Hk]. apply in_map_iff in Hk as [[k' vt] [<- Hk]]. now exists vt. }
  rewrite (CL a Oa Ga), (CL b Ob Gb). unfold satisfies. split.
  - intros [H [E|K]]; [discriminate|]. split; [intros k Hk; apply KEYS, K, Hk|]. split.
    + intros k vt Hk. apply (lookup_nodup _ _ _ Ga) in Hk. destruct (lookup (rt_map b) k) as [u|] eqn:Eb.
      * destruct (H k (TIntersection vt u)) as [vs [Hv [A _]]]; [apply LK; now rewrite Hk, Eb|]. eauto.
      * apply H. apply LK. now rewrite Hk, Eb.
    + intros k vt Hk. apply (lookup_nodup _ _ _ Gb) in Hk. destruct (lookup (rt_map a) k) as [u|] eqn:Ea.
      * destruct (H k (TIntersection u vt)) as [vs [Hv [_ A]]]; [apply LK; now rewrite Hk, Ea|]. eauto.
      * apply H. apply LK. now rewrite Hk, Ea.
  - intros [K [HA HB]]. split; [|right; intros k Hk; apply KEYS, K, Hk].
    intros k vt Hk. apply LK in Hk.
    destruct (lookup (rt_map a) k) as [t|] eqn:Ea; destruct (lookup (rt_map b) k) as [u|] eqn:Eb.
    + subst vt. apply lookup_in in Ea, Eb. destruct (HA _ _ Ea) as [vs [Hv A]]. destruct (HB _ _ Eb) as [ws [Hw B]].
      apply (lookup_nodup _ _ _ Gr) in Hv, Hw. exists vs. split; [now apply lookup_in|]. split; [exact A|].
      congruence.
    + subst vt. apply HA. now apply lookup_in.
    + subst vt. apply HB. now apply lookup_in.
    + destruct Hk.
Qed.
Print Assumptions C58_combine_partial.

(** The order of the two types does not matter, closed or not. *)
Theorem C58_commutes rx a b r :
  good_rtype a -> good_rtype b -> (satisfies rx (rt_combine a b) r <-> satisfies rx (rt_combine b a) r).
Proof.
  assert (ONE : forall a b, good_rtype a -> good_rtype b -> satisfies rx (rt_combine a b) r -> satisfies rx (rt_combine b a) r).
  { clear a b. intros a b Ga Gb [H [E|K]]; [discriminate|].
    assert (LK : forall x y, good_rtype x -> good_rtype y -> forall k vt, In (k, vt) (rt_map (rt_combine x y)) <->
       match lookup (rt_map x) k, lookup (rt_map y) k with
       | Some t, Some u => TIntersection t u = vt
       | Some t, None => t = vt
       | None, Some u => u = vt
       | None, None => False
       end).
    { intros x y Gx Gy k vt. rewrite <- (lookup_nodup _ k vt (rt_combine_good x y)), rt_combine_lookup by assumption.
      destruct (lookup (rt_map x) k), (lookup (rt_map y) k); split; try tauto; congruence. }
    split.
    - intros k vt Hk. apply (LK b a Gb Ga) in Hk.
      destruct (lookup (rt_map a) k) as [t|] eqn:Ea; destruct (lookup (rt_map b) k) as [u|] eqn:Eb; subst.
      + destruct (H k (TIntersection t u)) as [vs [Hv [A B]]]; [apply LK; auto; now rewrite Ea, Eb|].
        exists vs. split; [exact Hv|split; [exact B|exact A]].
      + apply H. apply LK; auto. now rewrite Ea, Eb.
      + apply H. apply LK; auto. now rewrite Ea, Eb.
      + destruct Hk.
    - right. intros k Hk. destruct (K k Hk) as [vt Hv]. apply (LK a b Ga Gb) in Hv.
      destruct (lookup (rt_map a) k) as [t|] eqn:Ea; destruct (lookup (rt_map b) k) as [u|] eqn:Eb; subst;
        [exists (TIntersection u t)|exists vt|exists vt|destruct Hv]; apply LK; auto; now rewrite Ea, Eb. }
  intros Ga Gb. split; auto.
Qed.
Print Assumptions C58_commutes.

(** Combining forgets that a type is open: a record of both types is not of their combination. *)
Theorem C58_open_refuted :
  exists a b r, good_rtype a /\ good_rtype b /\ good_record r /\ rt_open a = true /\ rt_open b = true /\
    forall rx, satisfies rx a r /\ satisfies rx b r /\ ~ satisfies rx (rt_combine a b) r.
Proof.
  exists (mkRtype [(1, TAny)] true), (mkRtype [] true), [(1, [VBool true]); (2, [])].
  split; [repeat constructor; auto|]. split; [constructor|].
  split; [constructor; [intros [E|[]]; discriminate|repeat constructor; auto]|].
  split; [reflexivity|]. split; [reflexivity|]. intro rx. split; [|split].
  - split; [|now left]. intros k vt [E|[]]. injection E as <- <-. exists [VBool true]. split; [now left|exact Logic.I].
  - split; [intros k vt []|now left].
  - intros [_ [E|H]]; [discriminate|]. destruct (H 2) as [vt [E|[]]]; [|discriminate].
    exists []. right. now left.
Qed.
Print Assumptions C58_open_refuted.

(** A property whose values may be none is still missed when its key is absent. *)
Theorem C58_star_refuted :
  exists k, forall rx, allows rx (TString ZeroOrMore) [] /\
    is_right (rt_conforms rx (rt_with rt_new k (TString ZeroOrMore)) []) = false.
Proof.
  exists 1. intro rx. split; [|reflexivity]. cbn. split; [exact Logic.I|intros v []].
Qed.
Print Assumptions C58_star_refuted.

Definition ex_rt1 : rtype := mkRtype [(1, TString One); (2, TInteger ZeroOrMore)] false.
Definition ex_rt2 : rtype := mkRtype [(2, TCond (CGreaterThan (VInteger 0))); (3, TAny)] false.
Definition ex_rec : record := [(2, [VInteger 4; VInteger 5]); (1, [VString []]); (3, [])].
Example C58_met : good_rtype ex_rt1 /\ good_rtype ex_rt2 /\ good_record ex_rec /\
  is_right (rt_conforms (fun _ _ => None) (rt_combine ex_rt1 ex_rt2) ex_rec) = true /\
  is_right (rt_conforms (fun _ _ => None) ex_rt1 (part ex_rec ex_rt1)) = true /\
  is_right (rt_conforms (fun _ _ => None) (rt_combine ex_rt1 ex_rt2) [(2, [VInteger 0]); (1, [VString []]); (3, [])]) = false.
Proof.
  unfold good_rtype, good_record, ex_rt1, ex_rt2, ex_rec; cbn [rt_map map fst].
  split; [repeat constructor; cbn; lia|]. split; [repeat constructor; cbn; lia|]. split; [repeat constructor; cbn; lia|].
  split; [reflexivity|]. split; reflexivity.
Qed.

(** ** C59: nodes against node types *)

Lemma conforms_node_run rx sc fuel t s n :
  defined sc t s ->
  conforms_node rx sc fuel t n =
  match semantics sc fuel s with
  | Some (Ok b) => Some (base_conforms rx b (n_labels n) (n_content n))
  | Some (Err e) => Some (Left [e])
  | None => None
  end.
Proof. intros [i [E1 E2]]. unfold conforms_node. now rewrite E1, E2. Qed.

(** What is accepted conforms, when alternatives do not mix labels and properties. *)
Theorem C59_sound_partial rx sc fuel t s n ev :
  defined sc t s -> apart sc s -> good_node n ->
  conforms_node rx sc fuel t n = Some (Right ev) -> conforming rx sc s n.
Proof.
  intros D A G. rewrite (conforms_node_run _ _ _ _ _ _ D).
  destruct (semantics sc fuel s) as [[b|e]|] eqn:E; [|discriminate|discriminate].
  intro H. apply semantics_yields in E. apply (accepted_sound rx sc s b n A E G).
  injection H as ->. reflexivity.
Qed.
Print Assumptions C59_sound_partial.

(** In general the labels and the properties of an accepted node are each right for
    some choice, though maybe not for the same one. *)
Theorem C59_parts_partial rx sc fuel t s n ev :
  defined sc t s -> sober sc s -> good_node n ->
  conforms_node rx sc fuel t n = Some (Right ev) ->
  (exists c, chooses sc s c /\ right_labels c (n_labels n)) /\
  (exists c, chooses sc s c /\ right_record rx c (n_content n)).
Proof.
  intros D A [Gl Gr]. rewrite (conforms_node_run _ _ _ _ _ _ D).
  destruct (semantics sc fuel s) as [[b|e]|] eqn:E; [|discriminate|discriminate].
  intro H. apply semantics_yields in E.
  assert (H' : is_right (base_conforms rx b (n_labels n) (n_content n)) = true) by (injection H as ->; reflexivity).
  apply (base_conforms_ok rx b _ _ Gr) in H' as [Hl [r [Hr Sr]]]. split.
  - destruct (yields_label _ _ _ _ A E Hl) as [c [C L]]. exists c. split; [exact C|].
    split; [intros x Hx; now apply L|]. right. intros x Hx. now apply L.
  - destruct (yields_record rx _ _ _ _ A E Hr) as [c [C R]]. exists c. split; [exact C|].
    eapply describes_sound; [exact R|eapply yields_closed; eassumption|reflexivity|exact Sr].
Qed.
Print Assumptions C59_parts_partial.

(** With as much fuel as there are names, a conforming node is accepted and any other
    node turned down. *)
Theorem C59_exact_partial rx sc fuel t s n :
  defined sc t s -> apart sc s -> settled sc s -> labelled sc s -> ends sc s -> linked sc s ->
  good_node n -> length (node_names sc) <= fuel ->
  exists v, conforms_node rx sc fuel t n = Some v /\ (is_right v = true <-> conforming rx sc s n).
Proof.
  intros D A S L E K G Le. rewrite (conforms_node_run _ _ _ _ _ _ D).
  pose proof (ends_run sc s E [] ltac:(constructor) ltac:(intros x []) ltac:(intros u _ [])) as R.
  cbn [length] in R. rewrite Nat.sub_0_r in R.
  destruct (semantics sc (length (node_names sc)) s) as [[b|e]|] eqn:Q;
    [|exfalso; exact (linked_no_error _ _ _ _ K Q)|congruence].
  rewrite (semantics_more _ _ _ _ _ Le Q). eexists. split; [reflexivity|].
  apply semantics_yields in Q. split.
  - apply accepted_sound; assumption.
  - apply accepted_complete; assumption.
Qed.
Print Assumptions C59_exact_partial.

(** No node without labels is accepted, whatever the type. *)
Theorem C59_unlabelled rx sc fuel t r ev :
  conforms_node rx sc fuel t (mkNode [] r) <> Some (Right ev).
Proof.
  unfold conforms_node. destruct (lookup (node_names sc) t) as [i|]; [|discriminate].
  destruct (lookup (node_types sc) i) as [s|]; [|discriminate].
  destruct (semantics sc fuel s) as [[b|e]|] eqn:E; [|discriminate|discriminate].
  apply semantics_yields, yields_no_empty in E. cbn [n_labels n_content]. unfold base_conforms.
  destruct (has_labels (b_labels b) []) eqn:H; [apply has_labels_in in H; contradiction|]. discriminate.
Qed.
Print Assumptions C59_unlabelled.

Definition two_types : schema :=
  add_node_spec (add_node_spec (add_node_spec schema_new 1
    (LContent (LLabel 11) (PClosed (Property 21 (SValue (TInteger One))))))
    2 (LContent (LLabel 12) (PClosed (Property 22 (SValue (TString One))))))
    3 (LOr (LRef 1) (LRef 2)).

Lemma two_defined1 s : defined two_types 1 s -> s = LContent (LLabel 11) (PClosed (Property 21 (SValue (TInteger One)))).
Proof. intros [i [E1 E2]]. injection E1 as <-. injection E2 as <-. reflexivity. Qed.
Lemma two_defined2 s : defined two_types 2 s -> s = LContent (LLabel 12) (PClosed (Property 22 (SValue (TString One)))).
Proof. intros [i [E1 E2]]. injection E1 as <-. injection E2 as <-. reflexivity. Qed.

Ltac follow :=
  repeat match goal with
  | H : below _ (_ _) _ |- _ => inversion H; clear H; subst
  | H : chooses _ (_ _) _ |- _ => inversion H; clear H; subst
  | H : picks (_ _ _) _ |- _ => inversion H; clear H; subst
  | H : picks PEmpty _ |- _ => inversion H; clear H; subst
  | H : defined two_types 1 _ |- _ => apply two_defined1 in H; subst
  | H : defined two_types 2 _ |- _ => apply two_defined2 in H; subst
  end.

(** A node with the labels of one alternative and the properties of the other is accepted:
    the type [@A | @B] takes the labels of [B] with the properties of [A]. *)
Theorem C59_or_refuted :
  exists sc t s n, defined sc t s /\ linked sc s /\ ends sc s /\ good_node n /\
    forall rx, ~ conforming rx sc s n /\
      forall fuel, 2 <= fuel -> exists ev, conforms_node rx sc fuel t n = Some (Right ev).
Proof.
  exists two_types, 3, (LOr (LRef 1) (LRef 2)), (mkNode [12] [(21, [VInteger 5])]).
  split; [exists 2; split; reflexivity|].
  split.
  { intros u B. follow.
    - eexists. exists 0. split; reflexivity.
    - eexists. exists 1. split; reflexivity. }
  split.
  { constructor; constructor; intros s D.
    - apply two_defined1 in D. subst. repeat constructor.
    - apply two_defined2 in D. subst. repeat constructor. }
  split; [split; cbn; repeat constructor; auto|]. intro rx. split.
  - intros [c [C [[L1 L2] [R1 R2]]]]. follow.
    + cbn in L1. destruct (L1 11 (or_introl eq_refl)) as [E|[]]; discriminate.
    + cbn in R2. destruct R2 as [E|R2]; [discriminate|].
      destruct (R2 21) as [u [E|[]]]; [exists [VInteger 5]; now left|discriminate].
  - intros [|[|fuel]] F; [lia|lia|]. eexists. cbn. reflexivity.
Qed.
Print Assumptions C59_or_refuted.

(** An optional label: a node without labels conforms and is turned down. *)
Theorem C59_optional_refuted :
  exists sc t s n, defined sc t s /\ good_node n /\
    forall rx, conforming rx sc s n /\ forall fuel, conforms_node rx sc fuel t n = Some (Left [LabelsDifferent]).
Proof.
  exists (add_node_spec schema_new 1 (LAnd (LLabel 11) (LOptional (LLabel 12)))), 1, (LAnd (LLabel 11) (LOptional (LLabel 12))), (mkNode [11] []).
  split; [exists 0; split; reflexivity|]. split; [split; cbn; repeat constructor; auto|]. intro rx. split.
  - eexists. split; [constructor; [constructor|apply ch_none]|]. split.
    + split; [cbn; tauto|]. right. cbn. tauto.
    + split; [intros k u []|]. right. intros k [vs []].
  - intros [|fuel]; reflexivity.
Qed.
Print Assumptions C59_optional_refuted.

(** Open labels: a further label conforms and is turned down. *)
Theorem C59_open_labels_refuted :
  exists sc t s n, defined sc t s /\ good_node n /\
    forall rx, conforming rx sc s n /\ forall fuel, conforms_node rx sc fuel t n = Some (Left [LabelsDifferent]).
Proof.
  exists (add_node_spec schema_new 1 (LOpen (LLabel 11))), 1, (LOpen (LLabel 11)), (mkNode [11; 12] []).
  split; [exists 0; split; reflexivity|]. split; [split; cbn; repeat constructor; auto|]. intro rx. split.
  - eexists. split; [constructor; constructor|]. split.
    + split; [cbn; tauto|]. now left.
    + split; [intros k u []|]. right. intros k [vs []].
  - intros [|fuel]; reflexivity.
Qed.
Print Assumptions C59_open_labels_refuted.

(** Open properties: a further key conforms and is turned down. *)
Theorem C59_open_keys_refuted :
  exists sc t s n, defined sc t s /\ good_node n /\
    forall rx, conforming rx sc s n /\ forall fuel, conforms_node rx sc fuel t n = Some (Left [RecordContentFails]).
Proof.
  exists (add_node_spec schema_new 1 (LContent (LLabel 11) (POpen (Property 21 (SValue TAny))))), 1,
    (LContent (LLabel 11) (POpen (Property 21 (SValue TAny)))), (mkNode [11] [(21, []); (22, [])]).
  split; [exists 0; split; reflexivity|]. split.
  { split; cbn; [repeat constructor|]. unfold good_record. cbn. repeat constructor; cbn; lia. }
  intro rx. split.
  - eexists. split; [apply ch_open_content; constructor|]. split.
    + split; [cbn; tauto|]. right. cbn. tauto.
    + split; [|now left]. cbn. intros k u [E|[]]. injection E as <- <-. exists []. split; [now left|exact Logic.I].
  - intros [|fuel]; reflexivity.
Qed.
Print Assumptions C59_open_keys_refuted.

(** The empty content next to another property: the property is lost. *)
Theorem C59_empty_refuted :
  exists sc t s n n', defined sc t s /\ good_node n /\ good_node n' /\
    forall rx, conforming rx sc s n /\ ~ conforming rx sc s n' /\
      forall fuel, conforms_node rx sc fuel t n = Some (Left [RecordContentFails]) /\
                   conforms_node rx sc fuel t n' = Some (Right [LabelsContentConforms]).
Proof.
  exists (add_node_spec schema_new 1 (LContent (LLabel 11) (PClosed (EachOf (Property 21 (SValue TAny)) PEmpty)))), 1,
    (LContent (LLabel 11) (PClosed (EachOf (Property 21 (SValue TAny)) PEmpty))), (mkNode [11] [(21, [])]), (mkNode [11] []).
  split; [exists 0; split; reflexivity|]. split; [split; cbn; repeat constructor; auto|].
  split; [split; cbn; repeat constructor|]. intro rx. split; [|split].
  - eexists. split; [apply ch_closed_content; [apply ch_label|apply (picks_each _ _ [(21, SValue TAny)] []); constructor]|]. split.
    + split; [cbn; tauto|]. right. cbn. tauto.
    + split; [|right]; cbn.
      * intros k u [E|[]]. injection E as <- <-. exists []. split; [now left|exact Logic.I].
      * intros k [vs [E|[]]]. injection E as <- _. eexists. now left.
  - intros [c [C [_ [R _]]]]. follow.
    cbn in R. destruct (R 21 (SValue TAny) (or_introl eq_refl)) as [vs [[] _]].
  - intros [|fuel]; split; reflexivity.
Qed.
Print Assumptions C59_empty_refuted.

Definition ex_spec : spec :=
  LContent (LAnd (LLabel 11) (LOr (LLabel 12) (LLabel 13)))
    (PClosed (EachOf (Property 21 (SValue (TString One))) (OptionalProperty 22 (SCond (TInteger One) (CGreaterThan (VInteger 17)))))).
Definition ex_schema : schema := add_node_spec schema_new 1 ex_spec.
Example C59_met :
  defined ex_schema 1 ex_spec /\ apart ex_schema ex_spec /\ settled ex_schema ex_spec /\ labelled ex_schema ex_spec /\
  ends ex_schema ex_spec /\ linked ex_schema ex_spec /\ sober ex_schema ex_spec /\
  good_node (mkNode [11; 13] [(22, [VInteger 18]); (21, [VString []])]) /\
  (forall rx, conforms_node rx ex_schema 1 1 (mkNode [11; 13] [(22, [VInteger 18]); (21, [VString []])]) = Some (Right [LabelsContentConforms])) /\
  (forall rx, conforms_node rx ex_schema 1 1 (mkNode [11; 12] [(21, [VString []])]) = Some (Right [LabelsContentConforms])) /\
  (forall rx, conforms_node rx ex_schema 1 1 (mkNode [11] [(21, [VString []])]) = Some (Left [LabelsDifferent])) /\
  (forall rx, conforms_node rx ex_schema 1 1 (mkNode [11; 12] [(22, [VInteger 17]); (21, [VString []])]) = Some (Left [RecordContentFails])).
Proof.
  split; [exists 0; split; reflexivity|].
  split; [repeat constructor; right; cbn; auto|].
  split; [constructor; [|right; cbn; auto]; repeat constructor|].
  split; [repeat constructor|]. split; [repeat constructor|].
  split; [intros u B; unfold ex_spec in B; follow|].
  split; [repeat constructor; right; cbn; auto|].
  split; [split; cbn; [repeat constructor|unfold good_record; cbn; repeat constructor; cbn; lia]|].
  repeat split; reflexivity.
Qed.

(** ** C60: references between types *)

(** References that end: the semantics is computed, and as many steps as there are names are enough. *)
Theorem C60_ends sc s fuel : ends sc s -> length (node_names sc) <= fuel -> semantics sc fuel s <> None.
Proof.
  intros E Le.
  pose proof (ends_run sc s E [] ltac:(constructor) ltac:(intros x []) ltac:(intros u _ [])) as R.
  cbn [length] in R. rewrite Nat.sub_0_r in R.
  destruct (semantics sc (length (node_names sc)) s) as [x|] eqn:Q; [|congruence].
  rewrite (semantics_more _ _ _ _ _ Le Q). discriminate.
Qed.
Print Assumptions C60_ends.

(** An answer that is a base type only comes from references that end. *)
Theorem C60_only sc s fuel b : semantics sc fuel s = Some (Ok b) -> ends sc s.
Proof. intro H. eapply yields_ends, semantics_yields, H. Qed.
Print Assumptions C60_only.

(** With all names defined, references that do not end are followed for ever. *)
Theorem C60_for_ever sc s : linked sc s -> ~ ends sc s -> forall fuel, semantics sc fuel s = None.
Proof.
  intros L N fuel. destruct (semantics sc fuel s) as [[b|e]|] eqn:E; [|exfalso; exact (linked_no_error _ _ _ _ L E)|reflexivity].
  destruct N. exact (C60_only _ _ _ _ E).
Qed.
Print Assumptions C60_for_ever.

(** The answer does not depend on how much fuel there is. *)
Theorem C60_stable sc s fuel fuel' x y : semantics sc fuel s = Some x -> semantics sc fuel' s = Some y -> x = y.
Proof.
  intros H H'. destruct (Nat.le_ge_cases fuel fuel') as [L|L].
  - rewrite (semantics_more _ _ _ _ _ L H) in H'. congruence.
  - rewrite (semantics_more _ _ _ _ _ L H') in H. congruence.
Qed.
Print Assumptions C60_stable.

(** [CREATE NODE TYPE (A : @A)]: nothing reports the loop. *)
Theorem C60_loop_refuted :
  exists sc t s, defined sc t s /\ linked sc s /\ forall rx fuel n, conforms_node rx sc fuel t n = None.
Proof.
  exists (add_node_spec schema_new 1 (LRef 1)), 1, (LRef 1).
  assert (DEF : defined (add_node_spec schema_new 1 (LRef 1)) 1 (LRef 1)) by (exists 0; split; reflexivity).
  split; [exact DEF|].
  assert (L : linked (add_node_spec schema_new 1 (LRef 1)) (LRef 1)).
  { set (sc := add_node_spec schema_new 1 (LRef 1)). intros u B. remember (LRef 1) as s eqn:Es in B. revert Es.
    induction B; intro Es; try discriminate.
    - injection Es as ->. exists (LRef 1). exists 0. split; reflexivity.
    - injection Es as ->. destruct H as [i [E1 E2]]. cbn in E1. injection E1 as <-. cbn in E2. injection E2 as E2. apply IHB. congruence. }
  split; [exact L|].
  intros rx fuel n. rewrite (conforms_node_run _ _ _ _ _ _ DEF).
  rewrite (C60_for_ever _ _ L); [reflexivity|].
  intro E. exact (ends_loop _ _ E 1 (be_here _ 1) (LRef 1) DEF (be_here _ 1)).
Qed.
Print Assumptions C60_loop_refuted.

Example C60_met : ends two_types (LOr (LRef 1) (LRef 2)) /\ length (node_names two_types) = 3 /\
  semantics two_types 0 (LOr (LRef 1) (LRef 2)) = None /\ semantics two_types 1 (LOr (LRef 1) (LRef 2)) <> None.
Proof.
  split; [|split; [reflexivity|split; [reflexivity|discriminate]]].
  constructor; constructor; intros s D; [apply two_defined1 in D|apply two_defined2 in D]; subst; repeat constructor.
Qed.

(** ** C61: the intersection of cardinalities *)

Definition tame (a b : card) : Prop :=
  a = b \/ (a = ZeroOrMore /\ (b = ZeroOrOne \/ b = One)) \/ (a = OneOrMore /\ b = One) \/
  (exists lo1 hi1 lo2 hi2, a = Range lo1 (Bounded hi1) /\ b = Range lo2 (Bounded hi2)) \/
  (exists lo1 lo2, a = Range lo1 Unbounded /\ b = Range lo2 Unbounded).

Theorem C61_intersection_partial a b n :
  tame a b \/ tame b a -> (fits (card_intersection a b) n <-> fits a n /\ fits b n).
Proof.
  assert (SELF : forall a, fits (card_intersection a a) n <-> fits a n).
  { clear. intros [| | | |lo [|hi]]; cbn; try tauto; rewrite ?Nat.max_id, ?Nat.min_id; tauto. }
  assert (ONE : forall a b, tame a b -> (fits (card_intersection a b) n <-> fits a n /\ fits b n) /\
                                         (fits (card_intersection b a) n <-> fits a n /\ fits b n)).
  { clear a b. intros a b [->|[[-> [->| ->]]|[[-> ->]|[(l1 & h1 & l2 & h2 & -> & ->)|(l1 & l2 & -> & ->)]]]].
    - rewrite SELF. tauto.
    - cbn. tauto.
    - cbn. tauto.
    - cbn. lia.
    - cbn. lia.
    - cbn. lia. }
  intros [T|T]; destruct (ONE _ _ T) as [H1 H2]; [exact H1|]. rewrite H2. tauto.
Qed.
Print Assumptions C61_intersection_partial.

Theorem C61_commutes a b n : fits (card_intersection a b) n <-> fits (card_intersection b a) n.
Proof.
  destruct a as [| | | |l1 [|h1]]; destruct b as [| | | |l2 [|h2]]; cbn; try tauto; lia.
Qed.
Print Assumptions C61_commutes.

(** [0..1] with [1] allows none; an unbounded range swallows the bound of the other. *)
Theorem C61_refuted :
  (exists a b n, fits (card_intersection a b) n /\ ~ fits a n) /\
  (exists lo1 lo2 hi n, fits (card_intersection (Range lo1 Unbounded) (Range lo2 (Bounded hi))) n /\ ~ fits (Range lo2 (Bounded hi)) n).
Proof.
  split.
  - exists One, ZeroOrOne, 0. cbn. split; [auto|lia].
  - exists 0, 0, 2, 3. cbn. lia.
Qed.
Print Assumptions C61_refuted.

(** It never turns down what both allow. *)
Theorem C61_allows a b n : fits a n -> fits b n -> fits (card_intersection a b) n.
Proof.
  destruct a as [| | | |l1 [|h1]]; destruct b as [| | | |l2 [|h2]]; cbn; try tauto; lia.
Qed.
Print Assumptions C61_allows.

Example C61_met : tame (Range 1 (Bounded 5)) (Range 3 (Bounded 9)) /\
  card_intersection (Range 1 (Bounded 5)) (Range 3 (Bounded 9)) = Range 3 (Bounded 5) /\ tame ZeroOrMore One.
Proof.
  split; [right; right; right; left; eauto 7|]. split; [reflexivity|]. right; left; auto.
Qed.

(** ** C62: the order of values *)

Lemma text_cmp_eq a b : text_cmp a b = Eq <-> a = b.
Proof.
  revert b; induction a as [|x a IH]; destruct b as [|y b]; cbn [text_cmp]; try (split; [discriminate|congruence]); [tauto|].
  destruct (N.compare_spec x y) as [->|L|L].
  - rewrite IH. split; congruence.
  - split; [discriminate|]. intro E. injection E as -> ->. destruct (N.lt_irrefl _ L).
  - split; [discriminate|]. intro E. injection E as -> ->. destruct (N.lt_irrefl _ L).
Qed.

Lemma text_cmp_opp a b : text_cmp b a = CompOpp (text_cmp a b).
Proof.
  revert b; induction a as [|x a IH]; destruct b as [|y b]; cbn [text_cmp]; try reflexivity.
  rewrite N.compare_antisym. destruct (N.compare x y); cbn; auto.
Qed.

Lemma text_cmp_trans a b c : text_cmp a b = Lt -> text_cmp b c = Lt -> text_cmp a c = Lt.
Proof.
  revert b c; induction a as [|x a IH]; destruct b as [|y b]; destruct c as [|z c]; cbn [text_cmp]; try discriminate; auto.
  destruct (N.compare x y) eqn:Exy; try discriminate; destruct (N.compare y z) eqn:Eyz; try discriminate; intros H1 H2;
    rewrite ?N.compare_eq_iff, ?N.compare_lt_iff in *; subst.
  - rewrite N.compare_refl. eauto.
  - now rewrite (proj2 (N.compare_lt_iff y z)).
  - now rewrite (proj2 (N.compare_lt_iff x z)).
  - rewrite (proj2 (N.compare_lt_iff x z)); [reflexivity|]. eapply N.lt_trans; eassumption.
Qed.

Inductive comparable : value -> value -> Prop :=
| co_string s t : comparable (VString s) (VString t)
| co_integer i j : comparable (VInteger i) (VInteger j)
| co_date i j : comparable (VDate i) (VDate j).

(** Within one kind of values the order is total and agrees with equality. *)
Theorem C62_total_partial a b : comparable a b ->
  (value_cmp a b = Eq <-> a = b) /\ value_cmp b a = CompOpp (value_cmp a b) /\
  (kin a b -> (value_cmp a b = Lt <-> before a b)) /\
  forall c, comparable b c -> value_cmp a b = Lt -> value_cmp b c = Lt -> value_cmp a c = Lt.
Proof.
  intros [s t|i j|i j]; cbn [value_cmp]; refine (conj _ (conj _ _)).
  - rewrite text_cmp_eq. split; [intros ->; reflexivity|intro E; now injection E].
  - apply text_cmp_opp.
  - split; [intro K; inversion K|]. intros c K. inversion K; subst. apply text_cmp_trans.
  - rewrite Z.compare_eq_iff. split; [intros ->; reflexivity|intro E; now injection E].
  - apply Z.compare_antisym.
  - split; [intros _; rewrite Z.compare_lt_iff; split; [now constructor|inversion 1; assumption]|].
    intros c K. inversion K; subst. cbn [value_cmp]. rewrite !Z.compare_lt_iff. lia.
  - rewrite Z.compare_eq_iff. split; [intros ->; reflexivity|intro E; now injection E].
  - apply Z.compare_antisym.
  - split; [intros _; rewrite Z.compare_lt_iff; split; [now constructor|inversion 1; assumption]|].
    intros c K. inversion K; subst. cbn [value_cmp]. rewrite !Z.compare_lt_iff. lia.
Qed.
Print Assumptions C62_total_partial.

(** Across kinds it calls different values equal, and so is not transitive: sorting the
    values of a record relies on an order that is none. *)
Theorem C62_order_refuted :
  (exists a b, a <> b /\ value_cmp a b = Eq) /\
  (exists a b c, value_cmp a b = Eq /\ value_cmp b c = Eq /\ value_cmp a c = Lt) /\
  value_cmp (VBool true) (VBool false) = Eq.
Proof.
  split; [|split].
  - exists (VInteger 1), (VString []). split; [discriminate|reflexivity].
  - exists (VInteger 1), (VString []), (VInteger 2). repeat split.
  - reflexivity.
Qed.
Print Assumptions C62_order_refuted.

Example C62_met : comparable (VString [97%N]) (VString [98%N]) /\ value_cmp (VString [97%N]) (VString [98%N]) = Lt.
Proof. split; [constructor|reflexivity]. Qed.
