(* Reading what has been written: facets and node constraints. *)

From Coq Require Import List String Ascii NArith ZArith Bool Lia Arith Sorting.Sorted Sorting.Permutation.
From Verif Require Import SjModel SjSpec SjText SjLemmas.
Import ListNotations.
Open Scope string_scope.

Local Arguments mem : simpl never.

Section Node.
Context {L : lib}.

(* ------------------------------------------------------------------ *)
(* One facet                                                            *)

Lemma nodup_rank (fs : list facet) f g :
  NoDup (map rank fs) -> In f fs -> In g fs -> rank f = rank g -> f = g.
Proof.
  induction fs as [|h fs IH]; cbn; [intros _ []|].
  intros Hn Hf Hg E. inversion Hn as [|? ? Hx Hn']; subst.
  destruct Hf as [->|Hf]; destruct Hg as [->|Hg]; auto.
  - exfalso. apply Hx. rewrite E. now apply in_map.
  - exfalso. apply Hx. rewrite <- E. now apply in_map.
Qed.

Lemma no_key k r (fs : list facet) :
  (forall f, rank f <> r -> mem k (w_facet f) = false) ->
  ~ In r (map rank fs) -> mem k (flat_map w_facet fs) = false.
Proof.
  intros Hk. induction fs as [|f fs IH]; cbn; [reflexivity|].
  intros H. rewrite mem_app, IH by tauto. rewrite Hk by (intros E; apply H; now left). reflexivity.
Qed.

(* The member of the only facet of a rank. *)
Lemma field_of k r {A : Type} (rd : json -> res A) (fs : list facet) f :
  (forall f, rank f <> r -> mem k (w_facet f) = false) ->
  NoDup (map rank fs) -> In f fs -> rank f = r ->
  field k rd (flat_map w_facet fs) = field k rd (w_facet f).
Proof.
  intros Hk. induction fs as [|g fs IH]; intros Hn Hf Hr; [destruct Hf|].
  cbn. inversion Hn as [|? ? Hx Hn']; subst. destruct Hf as [->|Hf].
  - apply field_cut. apply (no_key k (rank f)); assumption.
  - rewrite field_skip; [now apply IH|]. apply Hk. intros E. apply Hx. rewrite E. now apply in_map.
Qed.

Lemma field_absent k r {A : Type} (rd : json -> res A) (fs : list facet) :
  (forall f, rank f <> r -> mem k (w_facet f) = false) ->
  ~ In r (map rank fs) -> field k rd (flat_map w_facet fs) = Ok None.
Proof. intros Hk H. apply field_none. now apply (no_key k r). Qed.

(* A facet with one member. *)
Definition simple {A : Type} (k : string) (r : nat) (w : A -> json) (C : A -> facet) : Prop :=
  (forall a, w_facet (C a) = [(k, w a)]) /\
  (forall f, rank f = r <-> exists a, f = C a) /\
  (forall f, rank f <> r -> mem k (w_facet f) = false) /\
  (forall a b, C a = C b -> a = b).

Lemma get_simple {A : Type} k r (rd : json -> res A) (w : A -> json) (C : A -> facet) fs :
  simple k r w C ->
  NoDup (map rank fs) -> (forall a, In (C a) fs -> rd (w a) = Ok a) ->
  exists o, field k rd (flat_map w_facet fs) = Ok o /\ forall a, o = Some a <-> In (C a) fs.
Proof.
  intros (Hw & Hr & Hk & Hi) Hn Hok.
  destruct (in_dec Nat.eq_dec r (map rank fs)) as [H|H].
  - apply in_map_iff in H as (f & Hf & Hin). destruct (proj1 (Hr f) Hf) as (a & ->).
    exists (Some a). rewrite (field_of k r rd fs (C a)) by assumption.
    rewrite Hw. cbn. rewrite String.eqb_refl, Hok by assumption. split; [reflexivity|].
    intros b. split.
    + intros E. injection E as <-. exact Hin.
    + intros Hb. f_equal. apply Hi. apply (nodup_rank fs); auto.
      rewrite Hf. symmetry. apply Hr. now exists b.
  - exists None. split; [now apply (field_absent k r)|].
    intros b. split; [discriminate|]. intros Hb. exfalso. apply H. apply in_map_iff.
    exists (C b). split; [apply Hr; now exists b|exact Hb].
Qed.

(* What a reading of such a facet tells. *)
Lemma got_simple {A : Type} k r (rd : json -> res A) (w : A -> json) (C : A -> facet) fs o a :
  simple k r w C ->
  NoDup (map rank fs) -> field k rd (flat_map w_facet fs) = Ok o -> In (C a) fs ->
  exists b, rd (w a) = Ok b /\ o = Some b.
Proof.
  intros (Hw & Hr & Hk & Hi) Hn Ho Hin.
  rewrite (field_of k r rd fs (C a)) in Ho by (auto; apply Hr; now exists a).
  rewrite Hw in Ho. cbn in Ho. rewrite String.eqb_refl in Ho. apply map_ok in Ho as (b & Hb & <-).
  now exists b.
Qed.

Ltac simple_facet :=
  split; [reflexivity|split; [intros []; cbn; split; intros H; try discriminate;
     try (destruct H; discriminate); eauto|split; [intros [? | ? | ? | ? [?|] | ? | ? | ? | ? | ? | ?] H; cbn in *; try reflexivity; now destruct H|
     intros a b H; now injection H]]].

Lemma s_length : simple "length" 1 w_nat FLength. Proof. simple_facet. Qed.
Lemma s_minlength : simple "minlength" 2 w_nat FMinLength. Proof. simple_facet. Qed.
Lemma s_maxlength : simple "maxlength" 3 w_nat FMaxLength. Proof. simple_facet. Qed.
Lemma s_minin : simple "mininclusive" 4 write_fnum FMinIn. Proof. simple_facet. Qed.
Lemma s_maxin : simple "maxinclusive" 5 write_fnum FMaxIn. Proof. simple_facet. Qed.
Lemma s_minex : simple "minexclusive" 6 write_fnum FMinEx. Proof. simple_facet. Qed.
Lemma s_maxex : simple "maxexclusive" 7 write_fnum FMaxEx. Proof. simple_facet. Qed.
Lemma s_total : simple "totaldigits" 8 w_nat FTotal. Proof. simple_facet. Qed.
Lemma s_fraction : simple "fractiondigits" 9 w_nat FFraction. Proof. simple_facet. Qed.

Lemma k_pattern f : rank f <> 0 -> mem "pattern" (w_facet f) = false.
Proof. destruct f; cbn; try reflexivity. tauto. Qed.

Lemma k_flags f : rank f <> 0 -> mem "flags" (w_facet f) = false.
Proof. destruct f; cbn; try reflexivity. tauto. Qed.

Lemma get_pattern fs :
  NoDup (map rank fs) ->
  exists o fl, field "pattern" r_str (flat_map w_facet fs) = Ok o /\
    field "flags" r_str (flat_map w_facet fs) = Ok fl /\
    (forall s, o = Some s -> In (FPattern s fl) fs) /\
    (forall s g, In (FPattern s g) fs -> o = Some s /\ fl = g).
Proof.
  intros Hn. destruct (in_dec Nat.eq_dec 0 (map rank fs)) as [H|H].
  - apply in_map_iff in H as (f & Hf & Hin). destruct f as [n|n|n|s g|n|n|n|n|n|n]; try discriminate.
    exists (Some s), g.
    rewrite (field_of "pattern" 0 r_str fs _ k_pattern Hn Hin Hf).
    rewrite (field_of "flags" 0 r_str fs _ k_flags Hn Hin Hf).
    repeat split.
    + destruct g; reflexivity.
    + destruct g; reflexivity.
    + intros s' E. injection E as <-. exact Hin.
    + assert (FPattern s g = FPattern s0 g0) as E by (apply (nodup_rank fs); auto).
      now injection E as -> ->.
    + assert (FPattern s g = FPattern s0 g0) as E by (apply (nodup_rank fs); auto).
      now injection E as -> ->.
  - exists None, None.
    rewrite (field_absent "pattern" 0 r_str fs k_pattern H).
    rewrite (field_absent "flags" 0 r_str fs k_flags H).
    repeat split; try discriminate; exfalso; apply H; apply in_map_iff;
      exists (FPattern s g); split; auto.
Qed.

(* ------------------------------------------------------------------ *)
(* The facets that are read are in order                                *)

Definition from (r : nat) (l : list facet) : Prop :=
  StronglySorted before l /\ Forall (fun f => r <= rank f) l.

Lemma from_step {A : Type} r (C : A -> facet) o l :
  (forall a, rank (C a) = r) -> from (S r) l -> from r (maybe C o ++ l).
Proof.
  intros Hr [Hs Hf]. destruct o as [a|]; cbn.
  - split.
    + constructor; [exact Hs|]. apply Forall_forall. intros f Hin.
      rewrite Forall_forall in Hf. unfold before. rewrite Hr. apply Hf, Hin.
    + constructor; [now rewrite Hr|]. eapply Forall_impl; [|exact Hf]. cbn. lia.
  - split; [exact Hs|]. eapply Forall_impl; [|exact Hf]. cbn. lia.
Qed.

Definition collect (pattern flags : option string) (length minlength maxlength : option N)
  (mininclusive maxinclusive minexclusive maxexclusive : option fnum)
  (totaldigits fractiondigits : option N) : list facet :=
  (maybe (fun p => FPattern p flags) pattern ++
   maybe FLength length ++
   maybe FMinLength minlength ++
   maybe FMaxLength maxlength ++
   maybe FMinIn mininclusive ++
   maybe FMaxIn maxinclusive ++
   maybe FMinEx minexclusive ++
   maybe FMaxEx maxexclusive ++
   maybe FTotal totaldigits ++
   maybe FFraction fractiondigits)%list.

Lemma collect_sorted p fl a b c d e f g h i :
  StronglySorted before (collect p fl a b c d e f g h i).
Proof.
  unfold collect. apply (from_step 0); [reflexivity|]. apply from_step; [reflexivity|].
  apply from_step; [reflexivity|]. apply from_step; [reflexivity|]. apply from_step; [reflexivity|].
  apply from_step; [reflexivity|]. apply from_step; [reflexivity|]. apply from_step; [reflexivity|].
  apply from_step; [reflexivity|]. rewrite <- (app_nil_r (maybe FFraction i)).
  apply from_step; [reflexivity|]. split; constructor.
Qed.

Lemma in_maybe {A B : Type} (C : A -> B) o x : In x (maybe C o) <-> exists a, o = Some a /\ x = C a.
Proof.
  destruct o as [a|]; cbn.
  - split; [intros [<-|[]]; now exists a|]. intros (b & E & ->). injection E as ->. now left.
  - split; [intros []|intros (a & E & _); discriminate].
Qed.

Lemma sorted_nodup fs : StronglySorted before fs -> NoDup (map rank fs).
Proof.
  induction 1 as [|f fs Hs IH Hf]; cbn; constructor; [|exact IH].
  intros Hin. apply in_map_iff in Hin as (g & E & Hg). rewrite Forall_forall in Hf.
  specialize (Hf g Hg). unfold before in Hf. lia.
Qed.

Lemma rank_nodup fs : NoDup (map rank fs) -> NoDup fs.
Proof. apply NoDup_map_inv. Qed.

(* There is one way to put facets in order. *)
Lemma sorted_unique fs gs :
  StronglySorted before fs -> StronglySorted before gs -> Permutation fs gs -> fs = gs.
Proof.
  revert gs. induction fs as [|f fs IH]; intros gs Hf Hg Hp.
  - now apply Permutation_nil in Hp.
  - destruct gs as [|g gs]; [now apply Permutation_sym, Permutation_nil in Hp|].
    apply StronglySorted_inv in Hf as [Hf Ff]. apply StronglySorted_inv in Hg as [Hg Fg].
    rewrite Forall_forall in Ff, Fg.
    assert (f = g) as ->.
    { assert (In f (g :: gs)) as Hin by (eapply Permutation_in; [exact Hp|now left]).
      assert (In g (f :: fs)) as Hin' by (eapply Permutation_in; [apply Permutation_sym, Hp|now left]).
      destruct Hin as [E|Hin]; [auto|]. destruct Hin' as [E|Hin']; [auto|].
      apply Ff in Hin'. apply Fg in Hin. unfold before in *. lia. }
    f_equal. apply IH; auto. now apply Permutation_cons_inv in Hp.
Qed.

Lemma usize_ok n : (n < 2 ^ 64)%N -> r_usize (w_nat n) = Ok n.
Proof.
  intros H. unfold r_usize, w_nat.
  assert ((0 <=? Z.of_N n)%Z = true) as -> by (apply Z.leb_le; lia).
  assert ((Z.of_N n <? 2 ^ 64)%Z = true) as -> by (apply Z.ltb_lt; lia).
  cbn. f_equal. lia.
Qed.

Lemma usize_got n m : r_usize (w_nat n) = Ok m -> (n < 2 ^ 64)%N.
Proof.
  unfold r_usize, w_nat. destruct (Z.leb_spec 0 (Z.of_N n)); [|discriminate].
  destruct (Z.ltb_spec (Z.of_N n) (2 ^ 64)); [|discriminate]. intros _. lia.
Qed.

(* ------------------------------------------------------------------ *)
(* All the facets                                                       *)

(* Any facets of different kinds are read, in the fixed order. *)
Lemma facets_read fs :
  NoDup (map rank fs) -> Forall ok_facet fs ->
  exists gs, r_facets (flat_map w_facet fs) = Ok (if is_nil gs then None else Some gs) /\
    Permutation fs gs /\ StronglySorted before gs.
Proof.
  intros Hn Hok. rewrite Forall_forall in Hok.
  destruct (get_pattern fs Hn) as (p & fl & Ep & Efl & Hp1 & Hp2).
  destruct (get_simple _ _ r_usize _ _ fs s_length Hn) as (o1 & E1 & H1).
  { intros a Ha. apply usize_ok. exact (Hok _ Ha). }
  destruct (get_simple _ _ r_usize _ _ fs s_minlength Hn) as (o2 & E2 & H2).
  { intros a Ha. apply usize_ok. exact (Hok _ Ha). }
  destruct (get_simple _ _ r_usize _ _ fs s_maxlength Hn) as (o3 & E3 & H3).
  { intros a Ha. apply usize_ok. exact (Hok _ Ha). }
  destruct (get_simple _ _ read_fnum _ _ fs s_minin Hn) as (o4 & E4 & H4).
  { intros a Ha. exact (Hok _ Ha). }
  destruct (get_simple _ _ read_fnum _ _ fs s_maxin Hn) as (o5 & E5 & H5).
  { intros a Ha. exact (Hok _ Ha). }
  destruct (get_simple _ _ read_fnum _ _ fs s_minex Hn) as (o6 & E6 & H6).
  { intros a Ha. exact (Hok _ Ha). }
  destruct (get_simple _ _ read_fnum _ _ fs s_maxex Hn) as (o7 & E7 & H7).
  { intros a Ha. exact (Hok _ Ha). }
  destruct (get_simple _ _ r_usize _ _ fs s_total Hn) as (o8 & E8 & H8).
  { intros a Ha. apply usize_ok. exact (Hok _ Ha). }
  destruct (get_simple _ _ r_usize _ _ fs s_fraction Hn) as (o9 & E9 & H9).
  { intros a Ha. apply usize_ok. exact (Hok _ Ha). }
  exists (collect p fl o1 o2 o3 o4 o5 o6 o7 o8 o9).
  split; [unfold r_facets; rewrite Ep, Efl, E1, E2, E3, E4, E5, E6, E7, E8, E9; reflexivity|].
  split; [|apply collect_sorted].
  apply NoDup_Permutation.
  - now apply rank_nodup.
  - apply rank_nodup, sorted_nodup, collect_sorted.
  - intros f. unfold collect. rewrite !in_app_iff, !in_maybe. split.
    + intros Hf. destruct f as [n|n|n|s g|n|n|n|n|n|n].
      * right; left. exists n. split; [now apply H1|reflexivity].
      * do 2 right; left. exists n. split; [now apply H2|reflexivity].
      * do 3 right; left. exists n. split; [now apply H3|reflexivity].
      * left. exists s. destruct (Hp2 s g Hf) as [E ->]. auto.
      * do 9 right. exists n. split; [now apply H9|reflexivity].
      * do 8 right; left. exists n. split; [now apply H8|reflexivity].
      * do 7 right; left. exists n. split; [now apply H7|reflexivity].
      * do 5 right; left. exists n. split; [now apply H5|reflexivity].
      * do 4 right; left. exists n. split; [now apply H4|reflexivity].
      * do 6 right; left. exists n. split; [now apply H6|reflexivity].
    + intros [(a & E & ->)|[(a & E & ->)|[(a & E & ->)|[(a & E & ->)|[(a & E & ->)|[(a & E & ->)|
        [(a & E & ->)|[(a & E & ->)|[(a & E & ->)|(a & E & ->)]]]]]]]]].
      * now apply Hp1.
      * now apply H1.
      * now apply H2.
      * now apply H3.
      * now apply H4.
      * now apply H5.
      * now apply H6.
      * now apply H7.
      * now apply H8.
      * now apply H9.
Qed.

Lemma facets_iff fs : r_facets (flat_map w_facet fs) = Ok (Some fs) <-> ok_facets fs.
Proof.
  split.
  - intros H. unfold r_facets in H.
    apply bind_ok in H as (p & Ep & H). apply bind_ok in H as (fl & Efl & H).
    apply bind_ok in H as (o1 & E1 & H). apply bind_ok in H as (o2 & E2 & H).
    apply bind_ok in H as (o3 & E3 & H). apply bind_ok in H as (o4 & E4 & H).
    apply bind_ok in H as (o5 & E5 & H). apply bind_ok in H as (o6 & E6 & H).
    apply bind_ok in H as (o7 & E7 & H). apply bind_ok in H as (o8 & E8 & H).
    apply bind_ok in H as (o9 & E9 & H). cbn zeta in H.
    fold (collect p fl o1 o2 o3 o4 o5 o6 o7 o8 o9) in H.
    destruct (is_nil (collect p fl o1 o2 o3 o4 o5 o6 o7 o8 o9)) eqn:En; [discriminate|].
    apply ok_inj in H. injection H as H.
    assert (StronglySorted before fs) as Hs by (rewrite <- H; apply collect_sorted).
    pose proof (sorted_nodup _ Hs) as Hn.
    assert (forall f, In f (collect p fl o1 o2 o3 o4 o5 o6 o7 o8 o9) -> In f fs) as Hin
      by now rewrite H.
    split; [intros E; rewrite E in H; rewrite H in En; discriminate|].
    split; [exact Hs|]. apply Forall_forall. intros f Hf.
    destruct f as [n|n|n|s g|n|n|n|n|n|n]; cbn.
    + destruct (got_simple _ _ _ _ _ fs o1 n s_length Hn E1 Hf) as (m & Hm & _). now apply usize_got in Hm.
    + destruct (got_simple _ _ _ _ _ fs o2 n s_minlength Hn E2 Hf) as (m & Hm & _). now apply usize_got in Hm.
    + destruct (got_simple _ _ _ _ _ fs o3 n s_maxlength Hn E3 Hf) as (m & Hm & _). now apply usize_got in Hm.
    + exact Logic.I.
    + destruct (got_simple _ _ _ _ _ fs o9 n s_fraction Hn E9 Hf) as (m & Hm & _). now apply usize_got in Hm.
    + destruct (got_simple _ _ _ _ _ fs o8 n s_total Hn E8 Hf) as (m & Hm & _). now apply usize_got in Hm.
    + destruct (got_simple _ _ _ _ _ fs o7 n s_maxex Hn E7 Hf) as (m & Hm & Ho).
      assert (FMaxEx n = FMaxEx m) as E; [|injection E as E; congruence].
      apply (nodup_rank fs); auto. apply Hin. unfold collect. rewrite !in_app_iff, !in_maybe.
      do 7 right; left. now exists m.
    + destruct (got_simple _ _ _ _ _ fs o5 n s_maxin Hn E5 Hf) as (m & Hm & Ho).
      assert (FMaxIn n = FMaxIn m) as E; [|injection E as E; congruence].
      apply (nodup_rank fs); auto. apply Hin. unfold collect. rewrite !in_app_iff, !in_maybe.
      do 5 right; left. now exists m.
    + destruct (got_simple _ _ _ _ _ fs o4 n s_minin Hn E4 Hf) as (m & Hm & Ho).
      assert (FMinIn n = FMinIn m) as E; [|injection E as E; congruence].
      apply (nodup_rank fs); auto. apply Hin. unfold collect. rewrite !in_app_iff, !in_maybe.
      do 4 right; left. now exists m.
    + destruct (got_simple _ _ _ _ _ fs o6 n s_minex Hn E6 Hf) as (m & Hm & Ho).
      assert (FMinEx n = FMinEx m) as E; [|injection E as E; congruence].
      apply (nodup_rank fs); auto. apply Hin. unfold collect. rewrite !in_app_iff, !in_maybe.
      do 6 right; left. now exists m.
  - intros (Hne & Hs & Hok). destruct (facets_read fs (sorted_nodup _ Hs) Hok) as (gs & E & Hp & Hg).
    rewrite <- (sorted_unique fs gs Hs Hg Hp) in E. rewrite E. destruct fs; [now destruct Hne|reflexivity].
Qed.

(* ------------------------------------------------------------------ *)
(* Node constraints                                                     *)

Definition facet_keys : list string :=
  ["pattern"; "flags"; "length"; "minlength"; "maxlength"; "mininclusive"; "maxinclusive";
   "minexclusive"; "maxexclusive"; "totaldigits"; "fractiondigits"].

Lemma facets_skip pre ms :
  Forall (fun k => mem k pre = false) facet_keys ->
  r_facets (pre ++ ms) = r_facets ms.
Proof.
  intros H. unfold facet_keys in H.
  repeat match goal with H : Forall _ (_ :: _) |- _ => inversion H; clear H; subst end.
  unfold r_facets. now rewrite !field_skip by assumption.
Qed.

Lemma facet_keys_of f k : mem k (w_facet f) = true -> In k facet_keys.
Proof.
  unfold mem. intros H. apply existsb_exists in H as ([k' x] & Hin & E).
  apply String.eqb_eq in E. cbn in E. subst k'.
  destruct f as [n|n|n|s [g|]|n|n|n|n|n|n]; cbn in Hin;
    repeat (destruct Hin as [Hin|Hin]; [injection Hin as <- _; cbn; tauto|]); destruct Hin.
Qed.

Lemma facets_mem fs k : ~ In k facet_keys -> mem k (w_facets fs) = false.
Proof.
  intros H. destruct fs as [fs|]; [|reflexivity]. cbn.
  induction fs as [|f fs IH]; [reflexivity|]. cbn. rewrite mem_app, IH, orb_false_r.
  destruct (mem k (w_facet f)) eqn:E; [|reflexivity]. now apply facet_keys_of in E.
Qed.

Lemma known_facets fs : known nodec_keys (w_facets fs) = Ok tt.
Proof.
  unfold known. destruct fs as [fs|]; [|reflexivity]. cbn [w_facets].
  replace (forallb _ _) with true; [reflexivity|]. symmetry. apply forallb_forall.
  intros [k x] Hin. apply in_flat_map in Hin as (f & _ & Hin).
  destruct f as [n|n|n|s [g|]|n|n|n|n|n|n]; cbn in Hin;
    repeat (destruct Hin as [Hin|Hin]; [injection Hin as <- _; reflexivity|]); destruct Hin.
Qed.

Lemma known_app {X : Type} ks (a b : list (string * X)) :
  known ks a = Ok tt -> known ks b = Ok tt -> known ks (a ++ b) = Ok tt.
Proof.
  unfold known. rewrite forallb_app. destruct (forallb _ a); [|discriminate].
  destruct (forallb _ b); [|discriminate]. reflexivity.
Qed.

Lemma kind_read k : r_kind (JStr (show_kind k)) = Ok k.
Proof. destruct k; reflexivity. Qed.

Lemma facets_opt_iff o : r_facets (w_facets o) = Ok o <-> ok_opt ok_facets o.
Proof. destruct o as [fs|]; cbn [w_facets ok_opt]; [apply facets_iff|]. split; reflexivity. Qed.

(* The node constraint that is read, whatever the facets. *)
Lemma nodec_read n :
  r_nodec (w_nodec n) =
  (datatype <- match n_datatype n with Some a => rmap Some (r_iri (w_iri a)) | None => Ok None end ;
   values <- match n_values n with
             | Some a => rmap Some (r_list r_value (w_list w_value a)) | None => Ok None end ;
   facets <- r_facets (w_facets (n_facets n)) ;
   Ok {| n_kind := n_kind n; n_datatype := datatype; n_facets := facets; n_values := values |}).
Proof.
  unfold r_nodec, w_nodec.
  rewrite known_app; [|destruct (n_kind n); reflexivity|].
  2:{ apply known_app; [destruct (n_datatype n); reflexivity|].
      apply known_app; [destruct (n_values n); reflexivity|]. apply known_facets. }
  cbn [rbind].
  rewrite (field_cut "nodeKind").
  2:{ rewrite !mem_app, !mem_memb by reflexivity. cbn [orb]. apply facets_mem. cbn. intuition discriminate. }
  rewrite field_memb.
  rewrite (field_skip "datatype") by now apply mem_memb.
  rewrite (field_cut "datatype").
  2:{ rewrite !mem_app, !mem_memb by reflexivity. cbn [orb]. apply facets_mem. cbn. intuition discriminate. }
  rewrite field_memb.
  rewrite (field_skip "values") by now apply mem_memb.
  rewrite (field_skip "values") by now apply mem_memb.
  rewrite (field_cut "values").
  2:{ apply facets_mem. cbn. intuition discriminate. }
  rewrite field_memb.
  rewrite facets_skip, facets_skip, facets_skip.
  - destruct (n_kind n) as [k|]; cbn [rbind]; [|reflexivity]. now rewrite kind_read.
  - repeat constructor; now apply mem_memb.
  - repeat constructor; now apply mem_memb.
  - repeat constructor; now apply mem_memb.
Qed.

Lemma nodec_iff n : r_nodec (w_nodec n) = Ok n <-> ok_nodec n.
Proof.
  rewrite nodec_read. destruct n as [k d fs vs]. unfold ok_nodec.
  cbn [n_kind n_datatype n_facets n_values].
  rewrite <- (opt_iff r_iri w_iri ok_name d name_iff).
  unfold ok_list. rewrite <- (opt_iff (r_list r_value) (w_list w_value) (Forall ok_value) vs).
  2:{ intros l. apply list_iff. apply value_iff. }
  rewrite <- facets_opt_iff. split.
  - intros H. apply bind_ok in H as (d' & Hd & H). apply bind_ok in H as (v' & Hv & H).
    apply bind_ok in H as (f' & Hf & H). injection H as -> -> ->. auto.
  - intros (Hd & Hv & Hf). rewrite Hd. cbn [rbind]. rewrite Hv. cbn [rbind]. rewrite Hf. reflexivity.
Qed.

End Node.
