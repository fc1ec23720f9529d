(* Lemmas on the comparison of shapes. *)
From Coq Require Import List String Ascii Bool.
Import ListNotations.
From Verif Require Import SjModel CoModel CoSpec.
Open Scope string_scope.

Section Lemmas.
Context {L : lib}.

(* ---- maps ---- *)
Lemma lookup_put {A} k k' (v : A) l : lookup k (put k' v l) = if String.eqb k k' then Some v else lookup k l.
Proof.
  induction l as [|[a b] l IH]; cbn [put lookup]; [reflexivity|].
  destruct (String.eqb_spec k' a) as [->|N]; cbn [lookup].
  - destruct (String.eqb k a); reflexivity.
  - rewrite IH. destruct (String.eqb_spec k a) as [->|N']; [|reflexivity]. destruct (String.eqb_spec a k') as [->|]; [congruence|reflexivity].
Qed.
Lemma lookup_in {A} k (v : A) l : NoDup (map fst l) -> lookup k l = Some v <-> In (k, v) l.
Proof.
  intro N. induction l as [|[a b] l IH]; cbn [lookup In]; [split; [discriminate|intros []]|]. cbn in N. inversion N as [|? ? NI N']; subst.
  destruct (String.eqb_spec k a) as [->|E].
  - split; [intros [= ->]; left; reflexivity|]. intros [[= ->]|I]; [reflexivity|]. exfalso. apply NI. change a with (fst (a, v)). apply in_map, I.
  - rewrite (IH N'). split; [right; assumption|]. intros [[= -> ->]|I]; [congruence|exact I].
Qed.
Lemma keys_put {A} k (v : A) l : NoDup (map fst l) -> NoDup (map fst (put k v l)).
Proof.
  assert (X : forall x, In x (map fst (put k v l)) -> x = k \/ In x (map fst l)).
  { induction l as [|[a b] l IH]; cbn [put map fst In]; intros x; [intros [<-|[]]; left; reflexivity|]. destruct (String.eqb_spec k a) as [->|E]; cbn [map fst In]; [tauto|].
    intros [<-|I]; [right; left; reflexivity|]. destruct (IH x I); tauto. }
  intro N. induction l as [|[a b] l IH]; cbn [put map fst]; [constructor; [intros []|constructor]|]. cbn in N. inversion N as [|? ? NI N']; subst.
  destruct (String.eqb_spec k a) as [->|E]; cbn [map fst]; [constructor; assumption|]. constructor; [|apply IH; [|exact N']].
  - intro I. assert (Y : forall x, In x (map fst (put k v l)) -> x = k \/ In x (map fst l)).
    { clear. induction l as [|[a b] l IH]; cbn [put map fst In]; intros x; [intros [<-|[]]; left; reflexivity|]. destruct (String.eqb_spec k a) as [->|E]; cbn [map fst In]; [tauto|].
      intros [<-|I]; [right; left; reflexivity|]. destruct (IH x I); tauto. }
    destruct (Y a I); [congruence|contradiction].
  - clear. induction l as [|[a b] l IH]; cbn [put map fst In]; intros x; [intros [<-|[]]; left; reflexivity|]. destruct (String.eqb_spec k a) as [->|E]; cbn [map fst In]; [tauto|].
    intros [<-|I]; [right; left; reflexivity|]. destruct (IH x I); tauto.
Qed.

(* ---- names ---- *)
Lemma ends_iff c s : ends_with c s = true <-> exists t, s = t ++ String c "".
Proof.
  induction s as [|d s IH]; [cbn; split; [discriminate|intros ([|x t] & E); discriminate E]|].
  destruct s as [|d' s].
  - cbn. rewrite Ascii.eqb_eq. split; [intros ->; exists ""; reflexivity|]. intros ([|x t] & E); [injection E as ->; reflexivity|]. cbn in E. injection E as -> E. destruct t; discriminate E.
  - change (ends_with c (String d (String d' s))) with (ends_with c (String d' s)). rewrite IH. split.
    + intros (t & ->). exists (String d t). reflexivity.
    + intros ([|x t] & E); [discriminate E|]. cbn in E. injection E as -> E. exists t. exact E.
Qed.
Lemma separated_iff ns : ends_with "/" ns || ends_with "#" ns = true <-> separated ns.
Proof. rewrite orb_true_iff, !ends_iff. unfold separated. split; [intros [(t & E)|(t & E)]; exists t; auto|intros (t & [E|E]); [left|right]; exists t; exact E]. Qed.
Lemma extend_iff ns l s : extend ns l = Ok s <-> iri_ok s = true /\ (separated ns /\ s = ns ++ l \/ ~ separated ns /\ s = ns ++ "/" ++ l).
Proof.
  unfold extend. rewrite <- separated_iff. set (b := ends_with "/" ns || ends_with "#" ns). set (i := if b then ns ++ l else ns ++ "/" ++ l).
  assert (X : (b = true /\ s = ns ++ l \/ ~ b = true /\ s = ns ++ "/" ++ l) <-> s = i).
  { unfold i. destruct b; split; intro H; auto; destruct H as [[H E]|[H E]]; congruence. }
  rewrite X. destruct (iri_ok i) eqn:K; split.
  - intros [= <-]. auto.
  - intros [_ ->]. reflexivity.
  - discriminate.
  - intros [O ->]. congruence.
Qed.
Lemma resolve_iff pm i s : NoDup (map fst pm) -> resolve_iriref pm i = Ok s <-> stands_for pm i s.
Proof.
  intro N. destruct i as [t|p l]; cbn [resolve_iriref stands_for]; [split; congruence|]. unfold resolve_prefix_local.
  destruct l as [|c l]; cbn [String.eqb].
  - destruct (lookup p pm) as [ns|] eqn:E; rewrite <- (lookup_in _ _ _ N), E; split; congruence.
  - destruct (lookup p pm) as [ns|] eqn:E.
    + rewrite extend_iff. split; [intro H; exists ns; split; [apply (lookup_in _ _ _ N), E|exact H]|]. intros (ns' & I & H). apply (lookup_in _ _ _ N) in I. rewrite E in I. injection I as <-. exact H.
    + split; [discriminate|]. intros (ns' & I & _). apply (lookup_in _ _ _ N) in I. congruence.
Qed.
Lemma stands_fun pm i s s' : NoDup (map fst pm) -> stands_for pm i s -> stands_for pm i s' -> s = s'.
Proof. intros N H H'. apply (resolve_iff _ _ _ N) in H, H'. congruence. Qed.

(* ---- finding ---- *)
Section Schema.
Variable sch : schema.
Hypothesis PF : prefixes_fine sch.
Notation pm := (prefixes_of sch).
Notation stands := (stands_for pm).

Lemma find_decl_iff l ds e : find_decl pm l ds = Ok (Some e) <->
  exists before d after, ds = (before ++ d :: after)%list /\ d_expr d = e /\ (exists i, d_id d = LIri i /\ stands i l) /\
    forall d' i, In d' before -> d_id d' = LIri i -> exists s, stands i s /\ s <> l.
Proof.
  induction ds as [|d ds IH]; cbn [find_decl].
  - split; [discriminate|]. intros (b & d & a & E & _). destruct b; discriminate E.
  - split.
    + intro H. assert (X : (exists i, d_id d = LIri i /\ stands i l /\ d_expr d = e) \/ (find_decl pm l ds = Ok (Some e) /\ forall i, d_id d = LIri i -> exists s, stands i s /\ s <> l)).
      { destruct (d_id d) as [i|b|] eqn:E; [|right; split; [exact H|discriminate]|right; split; [exact H|discriminate]].
        destruct (resolve_iriref pm i) as [s| |] eqn:R; cbn [rbind] in H; try discriminate. apply (resolve_iff _ _ _ PF) in R.
        destruct (String.eqb_spec s l) as [->|N]; [injection H as H; left; exists i; auto|]. right. split; [exact H|]. intros i' [= <-]. exists s. auto. }
      destruct X as [(i & E & S & Ee)|(F & B)].
      * exists [], d, ds. repeat split; [exact Ee|exists i; auto|intros ? ? []].
      * apply IH in F. destruct F as (b & d' & a & -> & Ee & I & Bf). exists (d :: b), d', a. repeat split; [exact Ee|exact I|]. intros d'' i [<-|J]; [apply B|exact (Bf d'' i J)].
    + intros (b & d' & a & E & Ee & (i & Ei & S) & Bf). destruct b as [|d0 b].
      * cbn in E. injection E as <- <-. rewrite Ei. apply (resolve_iff _ _ _ PF) in S. rewrite S. cbn [rbind]. rewrite String.eqb_refl. congruence.
      * cbn in E. injection E as <- E. assert (F : find_decl pm l ds = Ok (Some e)).
        { apply IH. exists b, d', a. repeat split; [exact E|exact Ee|exists i; auto|]. intros d'' i' J. exact (Bf d'' i' (or_intror J)). }
        destruct (d_id d) as [i'|x|] eqn:Ed; [|exact F|exact F]. destruct (Bf d i' (or_introl eq_refl) Ed) as (s & Ss & Ns). apply (resolve_iff _ _ _ PF) in Ss. rewrite Ss. cbn [rbind].
        destruct (String.eqb_spec s l); [contradiction|exact F].
Qed.
Lemma find_shape_iff l e : find_shape sch l = Ok (Some e) <-> l <> "START" /\ String.prefix "_:" l = false /\ iri_ok l = true /\ labelled sch l e.
Proof.
  unfold find_shape, find_shape_by_iri_ref, labelled. fold pm. destruct (String.eqb_spec l "START") as [->|N]; [split; [discriminate|intros [X _]; congruence]|].
  destruct (String.prefix "_:" l); [split; [discriminate|intros (_ & X & _); discriminate X]|].
  destruct (iri_ok l); [|split; [discriminate|intros (_ & _ & X & _); discriminate X]].
  change (match s_prefixes sch with Some pm0 => pm0 | None => [] end) with pm. cbn [resolve_iriref rbind].
  destruct (s_shapes sch) as [ds|].
  - rewrite find_decl_iff. split.
    + intros (b & d & a & -> & H). repeat split; auto. exists b, d, a. auto.
    + intros (_ & _ & _ & b & d & a & E & H). injection E as ->. exists b, d, a. auto.
  - split; [discriminate|]. intros (_ & _ & _ & b & d & a & E & _). discriminate E.
Qed.

(* ---- describing ---- *)
Variable ignore : bool.
Lemma resolve_some i s : resolve (s_prefixes sch) i = Ok s <-> s_prefixes sch <> None /\ stands i s.
Proof.
  unfold resolve. pose proof (resolve_iff pm i s PF) as R. unfold prefixes_of in R at 1. destruct (s_prefixes sch); [rewrite R; intuition congruence|]. split; [discriminate|intros [X _]; congruence].
Qed.
Lemma value_iff ve c : value_constraint ignore (s_prefixes sch) ve = Ok c -> describes ignore sch ve c.
Proof.
  unfold value_constraint, describes. destruct ignore; [congruence|]. destruct ve as [[| | |nc| | |l]|]; try discriminate.
  - destruct (n_datatype nc) as [d|] eqn:D.
    + destruct (resolve (s_prefixes sch) d) as [i| |] eqn:R; cbn; try discriminate. intros [= <-]. apply resolve_some in R. exists nc, d. tauto.
    + destruct (n_kind nc) as [k|] eqn:K; [|discriminate]. intros [= <-]. exists nc, k. repeat split; try assumption.
  - intros [= <-]. exists l. auto.
  - intros [= <-]. reflexivity.
Qed.
Lemma value_ok ve : s_prefixes sch <> None -> ((exists c, value_constraint ignore (s_prefixes sch) ve = Ok c) <-> value_known ignore sch ve).
Proof.
  intro P. unfold value_constraint, value_known. destruct ignore; [split; [auto|eauto]|].
  destruct ve as [[| | |nc| | |l]|]; try (split; [intros (c & E); discriminate E|intros [E|[]]; discriminate E]); try (split; [right; exact Logic.I|eauto]).
  destruct (n_datatype nc) as [d|].
  - split.
    + intros (c & E). right. destruct (resolve (s_prefixes sch) d) as [i| |] eqn:R; cbn in E; try discriminate. apply resolve_some in R. exists i. tauto.
    + intros [E|(i & S)]; [discriminate E|]. assert (R : resolve (s_prefixes sch) d = Ok i) by (apply resolve_some; auto). rewrite R. cbn. eauto.
  - destruct (n_kind nc); [split; [right; discriminate|eauto]|]. split; [intros (c & E); discriminate E|intros [E|E]; congruence].
Qed.
(* one member of a group *)
Lemma member_iff te p d : as_constraint ignore (s_prefixes sch) te = Ok (p, d) <->
  exists ve, constraint_of te p ve /\ vd_iri d = p /\ value_constraint ignore (s_prefixes sch) ve = Ok (vd_constraint d).
Proof.
  split.
  - destruct te as [| |id neg inv q ve mn mx acts anns|]; cbn; try discriminate. destruct (value_constraint ignore (s_prefixes sch) ve) as [c| |] eqn:V; cbn; try discriminate. intros [= <- <-].
    exists ve. split; [repeat eexists|]. split; [reflexivity|exact V].
  - intros (ve & (id & neg & inv & mn & mx & acts & anns & ->) & E & V). cbn. rewrite V. cbn. destruct d; cbn in *. subst. reflexivity.
Qed.
(* the last member on a property *)
Definition last_in (l : list texpr) (p : string) (d : vdescr) : Prop :=
  exists l1 te l2 ve, l = (l1 ++ te :: l2)%list /\ constraint_of te (vd_iri d) ve /\ stands (vd_iri d) p /\ value_constraint ignore (s_prefixes sch) ve = Ok (vd_constraint d) /\
    forall te' i' ve', In te' l2 -> constraint_of te' i' ve' -> ~ stands i' p.
Definition member_ok (te : texpr) : Prop :=
  exists p ve i c, constraint_of te p ve /\ resolve (s_prefixes sch) p = Ok i /\ value_constraint ignore (s_prefixes sch) ve = Ok c.
Lemma constraint_fun te p p' ve ve' : constraint_of te p ve -> constraint_of te p' ve' -> p = p' /\ ve = ve'.
Proof. intros (id & neg & inv & mn & mx & acts & anns & ->) (id' & neg' & inv' & mn' & mx' & acts' & anns' & E). injection E as <- <- <- <- <- <- <- <- <-. auto. Qed.
Lemma add_all_ok l : forall m, (exists m', add_all ignore (s_prefixes sch) m l = Ok m') <-> forall te, In te l -> member_ok te.
Proof.
  induction l as [|te l IH]; intro m; cbn [add_all]; [split; [intros _ ? []|eauto]|]. split.
  - intros (m' & E). destruct (as_constraint ignore (s_prefixes sch) te) as [[p d]| |] eqn:A; cbn [rbind fst snd] in E; try discriminate.
    destruct (resolve (s_prefixes sch) p) as [i| |] eqn:R; cbn [rbind] in E; try discriminate. apply member_iff in A. destruct A as (ve & C & _ & V).
    intros te' [<-|I]; [exists p, ve, i, (vd_constraint d); auto|]. exact (proj1 (IH _) (ex_intro _ m' E) te' I).
  - intro H. destruct (H te (or_introl eq_refl)) as (p & ve & i & c & C & R & V).
    assert (A : as_constraint ignore (s_prefixes sch) te = Ok (p, {| vd_iri := p; vd_constraint := c |})) by (apply member_iff; exists ve; auto).
    rewrite A. cbn [rbind fst snd]. rewrite R. cbn [rbind]. apply IH. intros te' I. apply H. right; exact I.
Qed.
Lemma add_all_lookup l : forall m m', add_all ignore (s_prefixes sch) m l = Ok m' -> forall p d,
  lookup p m' = Some d <-> last_in l p d \/ lookup p m = Some d /\ forall te i ve, In te l -> constraint_of te i ve -> ~ stands i p.
Proof.
  induction l as [|te l IH]; intros m m' E p d; cbn [add_all] in E.
  - injection E as <-. split; [intro H; right; split; [exact H|intros ? ? ? []]|]. intros [(l1 & te & l2 & ve & X & _)|[H _]]; [destruct l1; discriminate X|exact H].
  - destruct (as_constraint ignore (s_prefixes sch) te) as [[q d0]| |] eqn:A; cbn [rbind fst snd] in E; try discriminate.
    destruct (resolve (s_prefixes sch) q) as [i| |] eqn:R; cbn [rbind] in E; try discriminate.
    apply member_iff in A. destruct A as (ve & C & Q & V). apply resolve_some in R. destruct R as [PN S]. rewrite (IH _ _ E p d), lookup_put. split.
    + intros [(l1 & te' & l2 & ve' & -> & C' & S' & V' & B)|[H B]].
      * left. exists (te :: l1), te', l2, ve'. auto.
      * destruct (String.eqb_spec p i) as [->|NE].
        { injection H as <-. left. exists [], te, l, ve. rewrite Q. auto. }
        { right. split; [exact H|]. intros te' i' ve' [<-|I] C'; [|exact (B te' i' ve' I C')]. destruct (constraint_fun _ _ _ _ _ C C') as [<- _]. intro S'. apply NE. exact (stands_fun _ _ _ _ PF S' S). }
    + intros [(l1 & te' & l2 & ve' & X & C' & S' & V' & B)|[H B]].
      * destruct l1 as [|te0 l1]; cbn in X; injection X as <- X.
        { right. subst l2. destruct (constraint_fun _ _ _ _ _ C C') as [Eq <-]. rewrite <- Eq in S'. assert (p = i) as -> by exact (stands_fun _ _ _ _ PF S' S). rewrite String.eqb_refl. split; [|exact B].
          f_equal. destruct d0, d; cbn in *. congruence. }
        { left. exists l1, te', l2, ve'. auto. }
      * right. split; [|intros te' i' ve' I; exact (B te' i' ve' (or_intror I))]. destruct (String.eqb_spec p i) as [->|NE]; [|exact H]. exfalso. exact (B te q ve (or_introl eq_refl) C S).
Qed.
Lemma add_all_keys l : forall m m', add_all ignore (s_prefixes sch) m l = Ok m' -> NoDup (map fst m) -> NoDup (map fst m').
Proof.
  induction l as [|te l IH]; intros m m' E N; cbn [add_all] in E; [congruence|].
  destruct (as_constraint ignore (s_prefixes sch) te) as [[q d0]| |]; cbn [rbind fst snd] in E; try discriminate.
  destruct (resolve (s_prefixes sch) q) as [i| |]; cbn [rbind] in E; try discriminate. apply (IH _ _ E), keys_put, N.
Qed.
Lemma member_iff_known te p ve : constraint_of te p ve -> (member_ok te <-> s_prefixes sch <> None /\ (exists i, stands p i) /\ value_known ignore sch ve).
Proof.
  intro C. split.
  - intros (p' & ve' & i & c & C' & R & V). destruct (constraint_fun _ _ _ _ _ C C') as [<- <-]. apply resolve_some in R. destruct R as [PN S]. split; [exact PN|]. split; [eauto|]. apply value_ok; eauto.
  - intros (PN & (i & S) & K). apply (value_ok ve PN) in K. destruct K as (c & V). exists p, ve, i, c. split; [exact C|]. split; [apply resolve_some; auto|exact V].
Qed.
Lemma shape_ok e : (exists m, shape2coshamo ignore (s_prefixes sch) e = Ok m) <-> describable ignore sch e.
Proof.
  unfold describable. destruct e as [| | | |c x te a n ex| |]; cbn [shape2coshamo]; try (split; [intros (m & E); discriminate E|intros (? & ? & ? & ? & ? & ? & E & _); discriminate E]).
  destruct te as [te|]; [|split; [intros _; exists c, x, None, a, n, ex; split; [reflexivity|]; split; [exact Logic.I|]; intros p ve (? & ? & ? & ? & ? & ? & E & _); discriminate E|eauto]].
  destruct te as [id l mn mx acts anns|id l mn mx acts anns|id neg inv q ve mn mx acts anns|r]; cbn [triple_expr2coshamo].
  - rewrite add_all_ok. split.
    + intro H. do 6 eexists. split; [reflexivity|]. split; [right; do 6 eexists; split; [reflexivity|]; intros te' I; destruct (H te' I) as (p & ve & _ & _ & C & _); eauto|].
      intros p ve (c' & x' & te' & a' & n' & ex' & E & D). injection E as <- <- <- <- <- <-. destruct D as [(? & ? & ? & ? & ? & ? & ? & E)|(id' & l' & mn' & mx' & ac' & an' & te' & E & I & C)]; [discriminate E|].
      injection E as <- <- <- <- <- <-. exact (proj1 (member_iff_known te' p ve C) (H te' I)).
    + intros (c' & x' & te' & a' & n' & ex' & E & D & K) te I. injection E as <- <- <- <- <- <-. destruct D as [(p & ve & ? & ? & ? & ? & ? & ? & ? & E)|(id' & l' & mn' & mx' & ac' & an' & E & D)]; [discriminate E|].
      injection E as <- <- <- <- <- <-. destruct (D te I) as (p & ve & C). apply (member_iff_known te p ve C). apply K. do 6 eexists. split; [reflexivity|]. right. do 7 eexists. split; [reflexivity|]. split; [exact I|exact C].
  - split; [intros (m & E); discriminate E|]. intros (c' & x' & te' & a' & n' & ex' & E & D & _). injection E as <- <- <- <- <- <-.
    destruct D as [(p & ve & ? & ? & ? & ? & ? & ? & ? & E)|(id' & l' & mn' & mx' & ac' & an' & E & _)]; discriminate E.
  - assert (C : constraint_of (TTriple id neg inv q ve mn mx acts anns) q ve) by (repeat eexists).
    transitivity (member_ok (TTriple id neg inv q ve mn mx acts anns)).
    { split.
      - intros (m & E). destruct (resolve (s_prefixes sch) q) as [i| |] eqn:R; cbn [rbind] in E; try discriminate. destruct (value_constraint ignore (s_prefixes sch) ve) as [v| |] eqn:V; cbn [rbind] in E; try discriminate.
        exists q, ve, i, v. auto.
      - intros (p' & ve' & i & v & C' & R & V). destruct (constraint_fun _ _ _ _ _ C C') as [<- <-]. rewrite R. cbn [rbind]. rewrite V. cbn. eauto. }
    rewrite (member_iff_known _ q ve C). split.
    + intro H. do 6 eexists. split; [reflexivity|]. split; [left; eauto|]. intros p ve' (c' & x' & te' & a' & n' & ex' & E & D). injection E as <- <- <- <- <- <-.
      destruct D as [C'|(id' & l' & mn' & mx' & ac' & an' & te' & E & _)]; [|discriminate E]. destruct (constraint_fun _ _ _ _ _ C C') as [<- <-]. exact H.
    + intros (c' & x' & te' & a' & n' & ex' & E & _ & K). injection E as <- <- <- <- <- <-. apply K. do 6 eexists. split; [reflexivity|]. left. exact C.
  - split; [intros (m & E); discriminate E|]. intros (c' & x' & te' & a' & n' & ex' & E & D & _). injection E as <- <- <- <- <- <-.
    destruct D as [(p & ve & ? & ? & ? & ? & ? & ? & ? & E)|(id' & l' & mn' & mx' & ac' & an' & E & _)]; discriminate E.
Qed.
Lemma shape_keys e m : shape2coshamo ignore (s_prefixes sch) e = Ok m -> NoDup (map fst m).
Proof.
  destruct e as [| | | |c x te a n ex| |]; cbn [shape2coshamo]; try discriminate. destruct te as [te|]; [|intros [= <-]; constructor].
  destruct te as [id l mn mx acts anns|id l mn mx acts anns|id neg inv q ve mn mx acts anns|r]; cbn [triple_expr2coshamo]; try discriminate.
  - intro E. apply (add_all_keys l [] m E). constructor.
  - destruct (resolve (s_prefixes sch) q) as [i| |]; cbn [rbind]; try discriminate. destruct (value_constraint ignore (s_prefixes sch) ve) as [v| |]; cbn [rbind]; try discriminate. intros [= <-]. constructor.
Qed.
Lemma grouped_lookup e m p d : shape2coshamo ignore (s_prefixes sch) e = Ok m -> grouped e ->
  lookup p m = Some d <-> exists ve, last_constraint sch e p (vd_iri d) ve /\ value_constraint ignore (s_prefixes sch) ve = Ok (vd_constraint d).
Proof.
  intros E (c & x & te & a & n & ex & -> & G). destruct te as [te|].
  - destruct (G te eq_refl) as (id & l & mn & mx & acts & anns & ->). cbn [shape2coshamo triple_expr2coshamo] in E. rewrite (add_all_lookup l [] m E p d). split.
    + intros [(l1 & te & l2 & ve & -> & C & S & V & B)|[H _]]; [|discriminate H]. exists ve. split; [|exact V]. unfold last_constraint. do 13 eexists. split; [reflexivity|]. auto.
    + intros (ve & (c' & x' & id' & l1 & te & l2 & mn' & mx' & ac & an & a' & n' & ex' & X & C & S & B) & V). injection X as <- <- <- -> <- <- <- <- <- <- <-. left. exists l1, te, l2, ve. auto.
  - cbn in E. injection E as <-. split; [discriminate|]. intros (ve & (c' & x' & id' & l1 & te & l2 & mn' & mx' & ac & an & a' & n' & ex' & X & _) & _). discriminate X.
Qed.
(* among the constraints on a property there is a last one *)
Lemma last_split {A} (P : A -> Prop) (l : list A) : (forall a, P a \/ ~ P a) -> (exists a, In a l /\ P a) ->
  exists l1 a l2, l = (l1 ++ a :: l2)%list /\ P a /\ forall b, In b l2 -> ~ P b.
Proof.
  intro DEC. induction l as [|t l IH]; intros (a & I & H); [destruct I|].
  assert (LL : (exists a, In a l /\ P a) \/ forall a, In a l -> ~ P a).
  { clear -DEC. induction l as [|t l IH]; [right; intros ? []|]. destruct (DEC t) as [D|D]; [left; exists t; split; [left; reflexivity|exact D]|].
    destruct IH as [(x & I & H)|H]; [left; exists x; split; [right; exact I|exact H]|]. right. intros x [<-|I]; [exact D|exact (H x I)]. }
  destruct LL as [E|N].
  - destruct (IH E) as (l1 & b & l2 & -> & K). exists (t :: l1), b, l2. split; [reflexivity|exact K].
  - destruct I as [->|I]; [|exfalso; exact (N a I H)]. exists [], a, l. auto.
Qed.
Lemma on_dec p te : (exists i ve, constraint_of te i ve /\ stands i p) \/ ~ (exists i ve, constraint_of te i ve /\ stands i p).
Proof.
  destruct te as [| |id neg inv q v mn mx ac an|]; try (right; intros (i & ve & (? & ? & ? & ? & ? & ? & ? & X) & _); discriminate X).
  destruct (resolve_iriref pm q) as [s| |] eqn:R.
  - destruct (String.eqb_spec s p) as [->|NE]; [left; exists q, v; split; [repeat eexists|apply (resolve_iff _ _ _ PF), R]|].
    right. intros (i & ve & (? & ? & ? & ? & ? & ? & ? & X) & S). injection X as <- <- <- <- <- <- <- <- <-. apply (resolve_iff _ _ _ PF) in S. congruence.
  - right. intros (i & ve & (? & ? & ? & ? & ? & ? & ? & X) & S). injection X as <- <- <- <- <- <- <- <- <-. apply (resolve_iff _ _ _ PF) in S. congruence.
  - right. intros (i & ve & (? & ? & ? & ? & ? & ? & ? & X) & S). injection X as <- <- <- <- <- <- <- <- <-. apply (resolve_iff _ _ _ PF) in S. congruence.
Qed.
Lemma last_exists e p : grouped e -> has_property sch e p <-> exists i ve, last_constraint sch e p i ve.
Proof.
  intros (c & x & te & a & n & ex & -> & G). split.
  - intros (i & ve & (c' & x' & te' & a' & n' & ex' & X & D) & S). injection X as <- <- -> <- <- <-. destruct (G te' eq_refl) as (id & l & mn & mx & acts & anns & ->).
    destruct D as [(? & ? & ? & ? & ? & ? & ? & X)|(id' & l' & mn' & mx' & ac' & an' & te' & X & I & C)]; [discriminate X|]. injection X as <- <- <- <- <- <-.
    destruct (last_split (fun te => exists i ve, constraint_of te i ve /\ stands i p) l (on_dec p)) as (l1 & t & l2 & -> & (i0 & ve0 & C0 & S0) & B); [exists te'; split; [exact I|eauto]|].
    exists i0, ve0. unfold last_constraint. do 13 eexists. split; [reflexivity|]. split; [exact C0|]. split; [exact S0|]. intros t' i' ve' I' C' S'. apply (B t' I'). eauto.
  - intros (i & ve & (c' & x' & id' & l1 & t & l2 & mn' & mx' & ac & an & a' & n' & ex' & X & C & S & _)). injection X as <- <- -> <- <- <-. exists i, ve. split; [|exact S].
    do 6 eexists. split; [reflexivity|]. right. do 7 eexists. split; [reflexivity|]. split; [apply in_or_app; right; left; reflexivity|exact C].
Qed.
Lemma grouped_property e m p : shape2coshamo ignore (s_prefixes sch) e = Ok m -> grouped e -> (exists d, lookup p m = Some d) <-> has_property sch e p.
Proof.
  intros E G. rewrite (last_exists e p G). split.
  - intros (d & H). apply (grouped_lookup e m p d E G) in H. destruct H as (ve & H & _). eauto.
  - intros (i & ve & H). destruct (proj1 (shape_ok e) (ex_intro _ m E)) as (c & x & te & a & n & ex & -> & _ & K).
    assert (C : constrains (SShape c x te a n ex) i ve).
    { destruct H as (c' & x' & id' & l1 & t & l2 & mn' & mx' & ac & an & a' & n' & ex' & X & C & _). injection X as <- <- -> <- <- <-. do 6 eexists. split; [reflexivity|]. right. do 7 eexists. split; [reflexivity|]. split; [apply in_or_app; right; left; reflexivity|exact C]. }
    destruct (K i ve C) as (PN & _ & V). apply (value_ok ve PN) in V. destruct V as (v & V). exists {| vd_iri := i; vd_constraint := v |}. apply (grouped_lookup _ m p _ E G). exists ve. auto.
Qed.
End Schema.

(* ---- comparing ---- *)
Lemma lookup_none {A} k (l : list (string * A)) : lookup k l = None <-> ~ In k (map fst l).
Proof.
  induction l as [|[a b] l IH]; cbn [lookup map fst In]; [tauto|]. destruct (String.eqb_spec k a) as [->|N]; [split; [discriminate|tauto]|]. rewrite IH. intuition congruence.
Qed.
Lemma compare1_spec m2 : forall m1 r, NoDup (map fst m1) ->
  (forall p, lookup p (equal_properties (compare1 m1 m2 r)) = match lookup p m1, lookup p m2 with Some d1, Some d2 => Some (d1, d2) | _, _ => lookup p (equal_properties r) end) /\
  (forall p, lookup p (properties1 (compare1 m1 m2 r)) = match lookup p m1, lookup p m2 with Some d1, None => Some d1 | _, _ => lookup p (properties1 r) end) /\
  properties2 (compare1 m1 m2 r) = properties2 r.
Proof.
  induction m1 as [|[k d1] m1 IH]; intros r N; cbn [compare1]; [split; [|split]; reflexivity|]. cbn in N. inversion N as [|? ? NI N']; subst.
  destruct (lookup k m2) as [d2|] eqn:E; (match goal with |- context [compare1 m1 m2 ?r'] => destruct (IH r' N') as (H1 & H2 & H3) end); cbn [equal_properties properties1 properties2] in *.
  - split; [|split; [|exact H3]]; intro p; cbn [lookup]; [rewrite H1, lookup_put|rewrite H2]; destruct (String.eqb_spec p k) as [->|NE].
    + apply lookup_none in NI. rewrite NI, E. reflexivity.
    + reflexivity.
    + apply lookup_none in NI. rewrite NI, E. reflexivity.
    + reflexivity.
  - split; [|split; [|exact H3]]; intro p; cbn [lookup]; [rewrite H1|rewrite H2, lookup_put]; destruct (String.eqb_spec p k) as [->|NE].
    + apply lookup_none in NI. rewrite NI, E. reflexivity.
    + reflexivity.
    + apply lookup_none in NI. rewrite NI, E. reflexivity.
    + reflexivity.
Qed.
Lemma compare2_spec m1 : forall m2 r, NoDup (map fst m2) ->
  equal_properties (compare2 m1 m2 r) = equal_properties r /\ properties1 (compare2 m1 m2 r) = properties1 r /\
  (forall p, lookup p (properties2 (compare2 m1 m2 r)) = match lookup p m1, lookup p m2 with None, Some d2 => Some d2 | _, _ => lookup p (properties2 r) end).
Proof.
  induction m2 as [|[k d2] m2 IH]; intros r N; cbn [compare2]; [split; [|split]; try reflexivity; intro p; destruct (lookup p m1); reflexivity|]. cbn in N. inversion N as [|? ? NI N']; subst.
  destruct (lookup k m1) as [d1|] eqn:E; (match goal with |- context [compare2 m1 m2 ?r'] => destruct (IH r' N') as (H1 & H2 & H3) end); cbn [equal_properties properties1 properties2] in *;
    (split; [exact H1|split; [exact H2|]]); intro p; rewrite H3; cbn [lookup]; try rewrite lookup_put; destruct (String.eqb_spec p k) as [->|NE]; try reflexivity.
  - rewrite E. reflexivity.
  - rewrite E. apply lookup_none in NI. rewrite NI. reflexivity.
Qed.
Theorem compare_spec m1 m2 p : NoDup (map fst m1) -> NoDup (map fst m2) ->
  lookup p (equal_properties (compare m1 m2)) = match lookup p m1, lookup p m2 with Some d1, Some d2 => Some (d1, d2) | _, _ => None end /\
  lookup p (properties1 (compare m1 m2)) = match lookup p m1, lookup p m2 with Some d1, None => Some d1 | _, _ => None end /\
  lookup p (properties2 (compare m1 m2)) = match lookup p m1, lookup p m2 with None, Some d2 => Some d2 | _, _ => None end.
Proof.
  intros N1 N2. unfold compare. destruct (compare1_spec m2 m1 {| equal_properties := []; properties1 := []; properties2 := [] |} N1) as (A & B & C).
  destruct (compare2_spec m1 m2 (compare1 m1 m2 {| equal_properties := []; properties1 := []; properties2 := [] |}) N2) as (X & Y & Z).
  rewrite X, Y, Z, A, B, C. cbn [equal_properties properties1 properties2 lookup]. split; [reflexivity|]. split; [reflexivity|]. destruct (lookup p m1), (lookup p m2); reflexivity.
Qed.
End Lemmas.
