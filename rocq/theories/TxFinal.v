(** The shapes of converted profiles mean what the profiles say. *)
From Coq Require Import List Arith Bool ZArith Lia Permutation.
Import ListNotations.
From Verif Require Import EngineModel EngineSpec CompModel CompSpec TapModel TapSpec TapLemmas TxModel TxSpec MatSpec MatLemmas MatFinal TxLemmas.
From Verif Require PrefixModel.

(** ** groups of triple constraints *)
Definition is_tc (te : ate) : Prop := exists p v mn mx, te = ATc None None p v mn mx [].
Definition pred_of (te : ate) : nat := match te with ATc _ inv p _ _ _ _ => predicate_of p inv | _ => 0 end.
Definition on (k : nat) (arcs : list arc) : list arc := filter (fun a => Nat.eqb (fst a) k) arcs.

Lemma filter_permutation {A} (f : A -> bool) l l' : Permutation l l' -> Permutation (filter f l) (filter f l').
Proof.
  induction 1 as [|x l l' P IH|x y l|l l' l'' P1 IH1 P2 IH2]; cbn; [constructor| | |exact (perm_trans IH1 IH2)].
  - destruct (f x); [constructor|]; exact IH.
  - destruct (f x), (f y); try apply Permutation_refl. apply perm_swap.
Qed.
Lemma filter_split {A} (f : A -> bool) l : Permutation l (filter f l ++ filter (fun x => negb (f x)) l).
Proof.
  induction l as [|x l IH]; cbn; [constructor|]. destruct (f x); cbn; [constructor; exact IH|]. apply Permutation_cons_app, IH.
Qed.
Lemma filter_none {A} (f : A -> bool) l : (forall x, In x l -> f x = false) -> filter f l = [].
Proof. induction l as [|x l IH]; intro H; cbn; [reflexivity|]. rewrite (H x (or_introl eq_refl)). apply IH. intros y I. apply H. right. exact I. Qed.
Lemma filter_every {A} (f : A -> bool) l : (forall x, In x l -> f x = true) -> filter f l = l.
Proof. induction l as [|x l IH]; intro H; cbn; [reflexivity|]. rewrite (H x (or_introl eq_refl)). f_equal. apply IH. intros y I. apply H. right. exact I. Qed.
Lemma on_on k k' arcs : k <> k' -> on k (filter (fun a => negb (Nat.eqb (fst a) k')) arcs) = on k arcs.
Proof.
  intro N. unfold on. induction arcs as [|a arcs IH]; cbn; [reflexivity|]. destruct (Nat.eqb_spec (fst a) k') as [E|E]; cbn.
  - destruct (Nat.eqb_spec (fst a) k) as [E'|E']; [congruence|exact IH].
  - rewrite IH. reflexivity.
Qed.

Section Sat.
  Variable eval : nat -> nat -> bool.
  Variable ext : nat -> bool.
  Variable g : rdf.
  Variable T : nat -> nat -> bool.
  Notation sat := (sat eval ext g T).
  Notation tmatch := (tmatch eval ext g T).
  Definition allmatch := fix all l arcs := match l with
                                  | [] => arcs = []
                                  | e :: r => exists a b, Permutation arcs (a ++ b) /\ tmatch e a /\ all r b
                                  end.

  Lemma tc_perm te a b : is_tc te -> Permutation a b -> tmatch te a -> tmatch te b.
  Proof.
    intros (p & v & mn & mx & ->) P (L & M & H). cbn. rewrite <- (Permutation_length P). split; [exact L|]. split; [exact M|].
    intros k x I. apply H. apply (Permutation_in _ (Permutation_sym P) I).
  Qed.
  Lemma tc_keys te a x : is_tc te -> tmatch te a -> In x a -> fst x = pred_of te.
  Proof. intros (p & v & mn & mx & ->) (_ & _ & H) I. destruct x as [k y]. destruct (H k y I) as [-> _]. reflexivity. Qed.
  Lemma allmatch_iff l : (forall te, In te l -> is_tc te) -> NoDup (map pred_of l) ->
    forall arcs, allmatch l arcs <-> (forall x, In x arcs -> In (fst x) (map pred_of l)) /\ forall te, In te l -> tmatch te (on (pred_of te) arcs).
  Proof.
    intros TC ND. induction l as [|e r IH]; intro arcs.
    - cbn. split; [intros ->; split; [intros ? []|intros ? []]|]. intros [H _]. destruct arcs as [|a arcs]; [reflexivity|]. destruct (H a (or_introl eq_refl)).
    - inversion ND as [|? ? Ne Nr]; subst. specialize (IH (fun te I => TC te (or_intror I)) Nr). cbn [allmatch]. fold allmatch. split.
      + intros (a & b & P & Ha & Hb). apply IH in Hb. destruct Hb as [Kb Hb]. assert (Ka : forall x, In x a -> fst x = pred_of e) by (intros x; exact (tc_keys e a x (TC e (or_introl eq_refl)) Ha)).
        split.
        * intros x I. apply (Permutation_in _ P) in I. apply in_app_iff in I. destruct I as [I|I]; [left; symmetry; exact (Ka x I)|right; exact (Kb x I)].
        * intros te [<-|I].
          { apply (tc_perm e a); [exact (TC e (or_introl eq_refl))| |exact Ha]. unfold on. apply Permutation_sym. eapply perm_trans; [apply filter_permutation, P|].
            rewrite filter_app. rewrite (filter_every _ a) by (intros x J; apply Nat.eqb_eq, Ka, J). rewrite (filter_none _ b); [rewrite app_nil_r; apply Permutation_refl|].
            intros x J. apply Nat.eqb_neq. intro E. apply Ne. rewrite <- E. apply Kb, J. }
          { apply (tc_perm te (on (pred_of te) b)); [exact (TC te (or_intror I))| |exact (Hb te I)]. unfold on. apply Permutation_sym. eapply perm_trans; [apply filter_permutation, P|].
            rewrite filter_app. rewrite (filter_none _ a); [apply Permutation_refl|]. intros x J. apply Nat.eqb_neq. intro E. apply Ne. rewrite <- (Ka x J), E. apply in_map, I. }
      + intros [K H]. exists (on (pred_of e) arcs), (filter (fun a => negb (Nat.eqb (fst a) (pred_of e))) arcs). split; [apply filter_split|].
        split; [apply H; left; reflexivity|]. apply IH. split.
        * intros x I. apply filter_In in I. destruct I as [I N]. apply negb_true_iff, Nat.eqb_neq in N. destruct (K x I) as [E|J]; [congruence|exact J].
        * intros te I. rewrite on_on; [apply H; right; exact I|]. intro E. apply Ne. rewrite <- E. apply in_map, I.
  Qed.
  Lemma each_iff l arcs : tmatch (AEach None l None None []) arcs <-> allmatch l arcs.
  Proof.
    cbn [CompSpec.tmatch]. fold allmatch. unfold group. split.
    - intros (k & L & M & H). cbn in L, M. assert (k = 1) as -> by lia. cbn in H. destruct H as (a & b & P & Ha & ->). rewrite app_nil_r in P.
      revert a arcs P Ha. induction l as [|e r IH]; intros a arcs P Ha; cbn in *; [subst a; apply Permutation_sym, Permutation_nil in P; exact P|].
      destruct Ha as (x & y & P' & H). exists x, y. split; [exact (perm_trans P P')|exact H].
    - intro H. exists 1. cbn. split; [lia|]. split; [lia|]. exists arcs, []. rewrite app_nil_r. auto using Permutation_refl.
  Qed.
  Lemma mentions_each l k : (forall te, In te l -> is_tc te) -> mentions (AEach None l None None []) k <-> In k (map pred_of l).
  Proof.
    intro TC. cbn [mentions]. induction l as [|e r IH]; cbn [map In]; [reflexivity|]. rewrite (IH (fun te I => TC te (or_intror I))).
    destruct (TC e (or_introl eq_refl)) as (p & v & mn & mx & ->). cbn [mentions pred_of]. intuition congruence.
  Qed.

  (** the arcs of a node *)
  Definition outgoing (n : nat) : list arc :=
    nodup pair_dec (map (fun t => let '(s, p, o) := t in (direct p, o)) (filter (fun t => let '(s, p, o) := t in Nat.eqb s n) g)).
  Lemma outgoing_in n k v : In (k, v) (outgoing n) <-> exists p, k = direct p /\ In (n, p, v) g.
  Proof.
    unfold outgoing. rewrite nodup_In, in_map_iff. split.
    - intros ([[s p] o] & E & I). apply filter_In in I. destruct I as [I O]. apply Nat.eqb_eq in O. subst s. injection E as <- <-. eauto.
    - intros (p & -> & I). exists (n, p, v). split; [reflexivity|]. apply filter_In. split; [exact I|apply Nat.eqb_refl].
  Qed.
  Lemma a_neighbourhood n : neighbourhood g n (outgoing n ++ incoming g n).
  Proof. apply neighbourhood_of; [apply NoDup_nodup|]. intros k v. apply outgoing_in. Qed.
  Lemma neighbourhood_perm n a b : Permutation a b -> neighbourhood g n a -> neighbourhood g n b.
  Proof.
    intros P [N H]. split; [exact (Permutation_NoDup P N)|]. intros k v. rewrite <- H. split; apply Permutation_in; [apply Permutation_sym|]; exact P.
  Qed.

  (** what a triple constraint asks of the values of the property *)
  Definition value_sat (v : option ase) (x : nat) : Prop := match v with None => True | Some e => sat e x end.
  Definition tc_ok (n : nat) (te : ate) : Prop :=
    match te with
    | ATc _ _ p v mn mx _ =>
        exists vs, NoDup vs /\ (forall x, In x vs <-> In (n, p, x) g) /\ at_least mn (length vs) /\ at_most mx (length vs) /\ forall x, In x vs -> value_sat v x
    | _ => True
    end.
  Lemma on_values k arcs : NoDup arcs -> NoDup (map snd (on k arcs)) /\ forall x, In x (map snd (on k arcs)) <-> In (k, x) arcs.
  Proof.
    intro N. split.
    - unfold on. induction N as [|[a b] arcs NI N IH]; cbn; [constructor|]. destruct (Nat.eqb_spec a k) as [->|E]; cbn; [|exact IH]. constructor; [|exact IH].
      intro I. apply in_map_iff in I. destruct I as ([c d] & Ed & I). cbn in Ed. subst d. apply filter_In in I. destruct I as [I E]. cbn in E. apply Nat.eqb_eq in E. subst c. contradiction.
    - intro x. unfold on. rewrite in_map_iff. split.
      + intros ([a b] & <- & I). apply filter_In in I. destruct I as [I E]. apply Nat.eqb_eq in E. cbn in *. subst a. exact I.
      + intro I. exists (k, x). split; [reflexivity|]. apply filter_In. split; [exact I|apply Nat.eqb_refl].
  Qed.
  Lemma tc_iff n te arcs : is_tc te -> NoDup arcs -> (forall x, In (pred_of te, x) arcs <-> exists p, pred_of te = direct p /\ In (n, p, x) g) ->
    tmatch te (on (pred_of te) arcs) <-> tc_ok n te.
  Proof.
    intros (p & v & mn & mx & ->) N H. cbn [pred_of] in *. change (predicate_of p None) with (direct p) in *.
    destruct (on_values (direct p) arcs N) as [N' I'].
    assert (G : forall x, In x (map snd (on (direct p) arcs)) <-> In (n, p, x) g).
    { intro x. rewrite I', H. split; [intros (q & E & J); apply direct_inj in E; subst q; exact J|eauto]. }
    cbn [CompSpec.tmatch tc_ok]. split.
    - intros (L & M & V). exists (map snd (on (direct p) arcs)). rewrite map_length. repeat split; try assumption; try apply G.
      intros x I. apply in_map_iff in I. destruct I as ([k y] & <- & I). destruct (V k y I) as (_ & W & _). exact W.
    - intros (vs & NV & IV & L & M & V). assert (length (on (direct p) arcs) = length vs) as E.
      { transitivity (length (map snd (on (direct p) arcs))); [symmetry; apply map_length|]. apply Permutation_length, NoDup_Permutation; try assumption. intro x. rewrite IV. apply G. }
      rewrite E. split; [exact L|]. split; [exact M|]. intros k x I. split; [|split; [|intros a []]].
      + apply filter_In in I. destruct I as [_ E']. apply Nat.eqb_eq in E'. exact E'.
      + apply V. apply IV, G. apply in_map_iff. exists (k, x). split; [reflexivity|exact I].
  Qed.
  Definition shape_of (tes : list ate) : ase := AShape None None (match tes with [] => None | _ => Some (AEach None tes None None []) end) [].
  Lemma shape_iff tes n : (forall te, In te tes -> is_tc te) -> NoDup (map pred_of tes) ->
    sat (shape_of tes) n <-> forall te, In te tes -> tc_ok n te.
  Proof.
    intros TC ND. unfold shape_of. destruct tes as [|e0 r0] eqn:E.
    - split; [intros _ te []|]. intros _. exists [], (outgoing n ++ incoming g n). split; [apply a_neighbourhood|]. split; [reflexivity|]. discriminate.
    - rewrite <- E in *. clear E e0 r0. cbn [CompSpec.sat]. split.
      + intros (matched & rest & NB & M & R) te I. apply each_iff in M. apply allmatch_iff in M; [|assumption|assumption]. destruct M as [K M].
        destruct NB as [NB1 NB2]. destruct (NoDup_app_inv _ _ NB1) as (N1 & _ & _). apply (tc_iff n te matched (TC te I) N1); [|exact (M te I)].
        intro x. assert (D : exists p, pred_of te = direct p) by (destruct (TC te I) as (p & v & mn & mx & ->); eexists; reflexivity).
        specialize (NB2 (pred_of te) x). rewrite in_app_iff in NB2. split.
        * intro J. destruct (proj1 NB2 (or_introl J)) as (p & [H|[H _]]); [exists p; exact H|]. exfalso. destruct D as (q & D). rewrite D in H. exact (direct_inverse q p H).
        * intros (p & Ep & J). destruct (proj2 NB2 (ex_intro _ p (or_introl (conj Ep J)))) as [X|X]; [exact X|]. exfalso.
          assert (DI : is_direct (pred_of te) = true) by (rewrite Ep; unfold is_direct, direct; rewrite Nat.even_mul; reflexivity).
          destruct (R (pred_of te) x X DI) as [R1 _].
          destruct R1 as [(q & [] & _) _]. apply mentions_each; [exact TC|]. apply in_map, I.
      + intro H. set (A := outgoing n ++ incoming g n). set (f := fun a : arc => existsb (Nat.eqb (fst a)) (map pred_of tes)).
        assert (F : forall a, f a = true <-> In (fst a) (map pred_of tes)).
        { intro a. unfold f. rewrite existsb_exists. split; [intros (k & I & Ek); apply Nat.eqb_eq in Ek; rewrite Ek; exact I|intro I; exists (fst a); split; [exact I|apply Nat.eqb_refl]]. }
        pose proof (neighbourhood_perm n _ _ (filter_split f A) (a_neighbourhood n)) as NB. exists (filter f A), (filter (fun a => negb (f a)) A). split; [exact NB|]. split.
        * apply each_iff. apply allmatch_iff; [exact TC|exact ND|]. split; [intros a I; apply filter_In in I; apply F, I|].
          intros te I. apply (tc_iff n te); [exact (TC te I)| | |exact (H te I)].
          { destruct NB as [NB _]. apply NoDup_app_inv in NB. apply NB. }
          intro x. rewrite filter_In. destruct (a_neighbourhood n) as [_ NB2]. unfold A. rewrite NB2. split.
          { intros [(p & [J|[J _]]) _]; [exists p; exact J|]. exfalso. destruct (TC te I) as (q & v & mn & mx & ->). exact (direct_inverse q p J). }
          { intros (p & J). split; [exists p; left; exact J|]. apply F. change (In (pred_of te) (map pred_of tes)). apply in_map, I. }
        * intros k v I _. apply filter_In in I. destruct I as [_ N]. split; [|discriminate]. intro M. exfalso. apply mentions_each in M; [|exact TC].
          apply negb_true_iff in N. assert (f (k, v) = true) by (apply F; exact M). congruence.
  Qed.

  Lemma sat_or l x : sat (AOr l) x <-> exists e, In e l /\ sat e x.
  Proof.
    cbn [CompSpec.sat]. induction l as [|e l IH]; [split; [intros []|intros (e & [] & _)]|]. rewrite IH. split.
    - intros [H|(e' & I & H)]; [exists e; split; [left; reflexivity|exact H]|exists e'; split; [right; exact I|exact H]].
    - intros (e' & [->|I] & H); [left; exact H|right; eauto].
  Qed.
End Sat.

(** ** the values of statements *)
Section Convert.
  Variable is_iri : str -> bool.
  Variable pm : list (str * str).
  Variable base : option str.
  Variable delimiter : nat.
  Variable number : str -> nat.
  Variable datatype_kind : str -> nat.
  Variable values_kind : list str -> nat.
  Notation named := (names (fun x => is_iri x = true) pm base).
  Notation resolve_iri := (resolve_iri is_iri pm base).
  Notation with_constraint := (with_constraint is_iri pm base values_kind).
  Notation parse_node_constraint := (parse_node_constraint is_iri pm base datatype_kind values_kind).
  Notation parse_shape_ref := (parse_shape_ref is_iri pm base delimiter number).
  Notation statement_to_te := (statement_to_te is_iri pm base delimiter number datatype_kind values_kind).
  Notation tapshape_to_se := (tapshape_to_se is_iri pm base delimiter number datatype_kind values_kind).
  Notation tapshape_to_decl := (tapshape_to_decl is_iri pm base delimiter number datatype_kind values_kind).
  Notation convert := (convert is_iri pm base delimiter number datatype_kind values_kind).
  Definition resolve_named := resolve_iff is_iri pm base.

  Lemma named_fun x i j : named x i -> named x j -> i = j.
  Proof. rewrite <- !resolve_named. congruence. Qed.

  (** ** when the conversion succeeds *)
  Definition constraint_names (c : option constraint) : Prop :=
    (forall x, c <> Some (Pattern x)) /\ forall l x, c = Some (PickList l) -> In x l -> exists i, named x i.
  Lemma resolved_all l : (exists is, map_res resolve_iri l = Ok is) <-> forall x, In x l -> exists i, named x i.
  Proof.
    rewrite <- map_res_ok. split; intros H x I; destruct (H x I) as (i & E); exists i; apply resolve_named; exact E.
  Qed.
  Lemma with_constraint_ok ps c : (exists ps', with_constraint ps c = Ok ps') <-> constraint_names c.
  Proof.
    unfold constraint_names. destruct c as [[l|s]|]; cbn.
    - split.
      + intros (ps' & E). split; [discriminate|]. intros l' x [= <-]. revert x. apply resolved_all. destruct (map_res resolve_iri l) as [is| |]; try discriminate. eauto.
      + intros [_ H]. destruct (proj2 (resolved_all l) (fun x => H l x eq_refl)) as (is & ->). cbn. eauto.
    - split; [intros (ps' & [=])|]. intros [H _]. exfalso. exact (H s eq_refl).
    - split; [intros _; split; discriminate|eauto].
  Qed.
  Lemma parse_node_ok st : (exists r, parse_node_constraint st = Ok r) <-> constraint_names (s_constraint st) /\ forall x, In x (s_datatypes st) -> exists i, named x i.
  Proof.
    unfold TxModel.parse_node_constraint. destruct (s_datatypes st) as [|d [|d' ds]].
    - destruct (s_constraint st) as [c|] eqn:Ec.
      + rewrite <- (with_constraint_ok [] (Some c)). split.
        * intros (r & E). split; [|intros ? []]. destruct (with_constraint [] (Some c)) as [ps| |] eqn:W; cbn [bind] in E; try discriminate. eauto.
        * intros [(ps & W) _]. rewrite W. cbn. eauto.
      + split; [|eauto]. intros _. split; [apply (with_constraint_ok [] None); cbn; eauto|intros ? []].
    - rewrite <- (with_constraint_ok [] (s_constraint st)). split.
      + intros (r & E). destruct (resolve_iri d) as [i| |] eqn:R; cbn [bind] in E; try discriminate. split.
        * apply with_constraint_ok. destruct (with_constraint [POne (datatype_kind i)] (s_constraint st)) as [ps| |] eqn:W; cbn [bind] in E; try discriminate.
          apply (with_constraint_ok [POne (datatype_kind i)]). eauto.
        * intros x [<-|[]]. exists i. apply resolve_named, R.
      + intros [W N]. destruct (N d (or_introl eq_refl)) as (i & R). apply resolve_named in R. rewrite R. cbn [bind].
        apply with_constraint_ok in W. apply (with_constraint_ok [POne (datatype_kind i)]) in W. destruct W as (ps & ->). cbn. eauto.
    - generalize (d :: d' :: ds) (or_introl eq_refl : In d (d :: d' :: ds)). intros l Il. split.
      + intros (r & E). match type of E with bind ?m _ = _ => destruct m as [es| |] eqn:M; cbn [bind] in E; try discriminate end.
        assert (M' := proj2 (map_res_ok _ l) (ex_intro _ es M)). split.
        * destruct (M' d Il) as (b & Eb). destruct (resolve_iri d) as [i| |]; cbn [bind] in Eb; try discriminate.
          apply (with_constraint_ok [POne (datatype_kind i)]). destruct (with_constraint _ _) as [ps| |]; try discriminate. eauto.
        * intros x I. destruct (M' x I) as (b & Eb). destruct (resolve_iri x) as [i| |] eqn:R; cbn [bind] in Eb; try discriminate. exists i. apply resolve_named, R.
      + intros [W N]. match goal with |- exists r, bind ?m _ = _ => assert (X : exists es, m = Ok es); [|destruct X as (es & ->); cbn; eauto] end.
        apply map_res_ok. intros x I. destruct (N x I) as (i & R). apply resolve_named in R. rewrite R. cbn [bind].
        apply (with_constraint_ok [POne (datatype_kind i)]) in W. destruct W as (ps & ->). cbn. eauto.
  Qed.
  Lemma parse_ref_ok st se : (exists r, parse_shape_ref st se = Ok r) <-> forall s x, s_value_shape st = Some s -> refers delimiter s x -> exists i, named x i.
  Proof.
    unfold TxModel.parse_shape_ref. destruct (s_value_shape st) as [s|]; [|split; [discriminate|eauto]]. split.
    - intros (r & E) s' x [= <-] H. apply refers_iff in H. match type of E with bind ?m _ = _ => destruct m as [es| |] eqn:M; cbn [bind] in E; try discriminate end.
      destruct (proj2 (map_res_ok _ _) (ex_intro _ es M) x H) as (b & Eb). destruct (resolve_iri x) as [i| |] eqn:R; cbn [bind] in Eb; try discriminate. exists i. apply resolve_named, R.
    - intro H. match goal with |- exists r, bind ?m _ = _ => assert (X : exists es, m = Ok es) end.
      { apply map_res_ok. intros x I. apply refers_iff in I. destruct (H s x eq_refl I) as (i & R). apply resolve_named in R. rewrite R. cbn. eauto. }
      destruct X as (es & ->). cbn [bind]. destruct es as [|e [|e' es]]; eauto.
  Qed.
  Lemma statement_ok st : (exists te, statement_to_te st = Ok te) <->
    (forall x, s_constraint st <> Some (Pattern x)) /\ forall x, statement_names delimiter st x -> exists i, named x i.
  Proof.
    unfold TxModel.statement_to_te. transitivity ((exists i, named (s_property st) i) /\ (constraint_names (s_constraint st) /\ forall x, In x (s_datatypes st) -> exists i, named x i) /\
      forall s x, s_value_shape st = Some s -> refers delimiter s x -> exists i, named x i).
    - rewrite <- parse_node_ok. split.
      + intros (te & E). destruct (resolve_iri (s_property st)) as [i| |] eqn:R; cbn [bind] in E; try discriminate.
        destruct (parse_node_constraint st) as [nc| |] eqn:P; cbn [bind] in E; try discriminate. destruct (parse_shape_ref st nc) as [v| |] eqn:V; cbn [bind] in E; try discriminate.
        split; [exists i; apply resolve_named, R|]. split; [eauto|]. apply (parse_ref_ok st nc). eauto.
      + intros ((i & R) & (nc & P) & V). apply resolve_named in R. rewrite R, P. cbn [bind]. apply (parse_ref_ok st nc) in V. destruct V as (v & ->). cbn. eauto.
    - unfold constraint_names, statement_names. split.
      + intros (P & [[NP C] D] & V). split; [exact NP|]. intros x [->|[I|[(l & E & I)|(s & E & I)]]]; [exact P|exact (D x I)|exact (C l x E I)|exact (V s x E I)].
      + intros [NP N]. split; [apply N; left; reflexivity|]. split; [split; [split; [exact NP|]|]|].
        * intros l x E I. apply N. right. right. left. eauto.
        * intros x I. apply N. right. left. exact I.
        * intros s x E I. apply N. right. right. right. eauto.
  Qed.
  Lemma decl_ok s : (exists d, tapshape_to_decl s = Ok d) <-> convertible named delimiter s.
  Proof.
    unfold TxModel.tapshape_to_decl, TxModel.tapshape_to_se, convertible. split.
    - intros (d & E). destruct (t_id s) as [id|]; [|discriminate]. destruct (resolve_iri id) as [i| |] eqn:R; cbn [bind] in E; try discriminate.
      destruct (map_res statement_to_te (t_statements s)) as [tes| |] eqn:S1; cbn [bind] in E; try discriminate.
      destruct (map_res (fun e => resolve_iri (fst e)) (t_extends s)) as [es| |] eqn:S2; cbn [bind] in E; try discriminate.
      split; [exists id, i; split; [reflexivity|apply resolve_named, R]|]. split.
      + intros e I. destruct (proj2 (map_res_ok _ _) (ex_intro _ es S2) e I) as (b & Eb). exists b. apply resolve_named, Eb.
      + intros st I. apply statement_ok. exact (proj2 (map_res_ok _ _) (ex_intro _ tes S1) st I).
    - intros ((id & i & -> & R) & X & S1). apply resolve_named in R. rewrite R. cbn [bind].
      destruct (proj1 (map_res_ok statement_to_te (t_statements s)) (fun st I => proj2 (statement_ok st) (S1 st I))) as (tes & ->). cbn [bind].
      destruct (proj1 (map_res_ok (fun e => resolve_iri (fst e)) (t_extends s))) as (es & ->).
      { intros e I. destruct (X e I) as (j & J). exists j. apply resolve_named, J. }
      cbn. eauto.
  Qed.
  Theorem convert_ok tap : (exists sch, convert tap = Ok sch) <-> forall s, In s tap -> convertible named delimiter s.
  Proof.
    unfold TxModel.convert. split.
    - intros (sch & E) s I. apply decl_ok. destruct (map_res tapshape_to_decl tap) as [ds| |] eqn:M; cbn [bind] in E; try discriminate.
      exact (proj2 (map_res_ok _ _) (ex_intro _ ds M) s I).
    - intro H. destruct (proj1 (map_res_ok tapshape_to_decl tap) (fun s I => proj2 (decl_ok s) (H s I))) as (ds & ->). cbn. eauto.
  Qed.

  (** ** what the result means *)
  Variable eval : nat -> nat -> bool.
  Variable ext : nat -> bool.
  Variable node : str -> nat.
  Variable has_datatype : nat -> str -> Prop.
  Variable has_kind : nat -> basic -> Prop.
  Variable matches : nat -> str -> Prop.
  Variable g : rdf.
  Hypothesis right : conditions_right eval datatype_kind values_kind node has_datatype.
  Hypothesis injective : forall i j, number i = number j -> i = j.

  Section Typing.
  Variable T : nat -> nat -> bool.
  Notation sat := (sat eval ext g T).
  Notation value_ok := (value_ok named delimiter number node has_datatype has_kind matches T).
  Definition constraint_ok (c : option constraint) (v : nat) : Prop :=
    match c with
    | None => True
    | Some (PickList l) => exists x i, In x l /\ named x i /\ v = node i
    | Some (Pattern s) => matches v s
    end.
  Lemma node_part ps p v : sat (ANode (ps ++ [p])) v <-> sat (ANode ps) v /\ forall k, In k (part_kinds p) -> eval k v = true.
  Proof.
    cbn. split.
    - intro H. split; [intros q k I; apply H; apply in_app_iff; left; exact I|]. intros k. apply H. apply in_app_iff. right. left. reflexivity.
    - intros [H1 H2] q k I. apply in_app_iff in I. destruct I as [I|[<-|[]]]; [exact (H1 q k I)|exact (H2 k)].
  Qed.
  Lemma constraint_means ps c ps' v : with_constraint ps c = Ok ps' -> (sat (ANode ps') v <-> sat (ANode ps) v /\ constraint_ok c v).
  Proof.
    destruct c as [[l|s]|]; cbn [TxModel.with_constraint TxModel.parse_constraint constraint_ok].
    - destruct (map_res resolve_iri l) as [is| |] eqn:M; cbn [bind]; try discriminate. intros [= <-]. rewrite node_part.
      apply map_res_iff in M. assert (E : (forall k, In k (part_kinds (POne (values_kind is))) -> eval k v = true) <-> exists x i, In x l /\ named x i /\ v = node i); [|rewrite E; reflexivity].
      cbn. transitivity (eval (values_kind is) v = true); [split; [intro H; apply H; left; reflexivity|intros H k [<-|[]]; exact H]|].
      rewrite (proj2 right). split.
      + intros (i & I & ->). destruct (Forall2_in_r _ _ _ _ M I) as (x & Ix & R). apply resolve_named in R. eauto.
      + intros (x & i & I & N & ->). destruct (Forall2_in_l _ _ _ _ M I) as (j & Ij & R). apply resolve_named in R. rewrite (named_fun _ _ _ N R). eauto.
    - discriminate.
    - intros [= <-]. tauto.
  Qed.
  Lemma node_means st nc v : length (s_datatypes st) <> 1 -> parse_node_constraint st = Ok nc ->
    (value_sat eval ext g T nc v <->
     (s_datatypes st = [] \/ exists d i, In d (s_datatypes st) /\ named d i /\ has_datatype v i) /\ constraint_ok (s_constraint st) v).
  Proof.
    intro L. unfold TxModel.parse_node_constraint. destruct (s_datatypes st) as [|d [|d' ds]]; [|cbn in L; congruence|].
    - destruct (s_constraint st) as [c|] eqn:Ec.
      + destruct (with_constraint [] (Some c)) as [ps| |] eqn:W; cbn [bind]; try discriminate. intros [= <-]. cbn [value_sat]. rewrite (constraint_means _ _ _ v W).
        split; [intros [_ H]; split; [left; reflexivity|exact H]|intros [_ H]; split; [cbn; intros p k []|exact H]].
      + intros [= <-]. cbn. tauto.
    - assert (NE : d :: d' :: ds <> []) by discriminate. remember (d :: d' :: ds) as l eqn:El. clear El L.
      match goal with |- bind ?m _ = _ -> _ => destruct m as [es| |] eqn:M; cbn [bind]; try discriminate end. intros [= <-].
      cbn [value_sat]. rewrite sat_or. apply map_res_iff in M. split.
      + intros (e & I & S1). destruct (Forall2_in_r _ _ _ _ M I) as (x & Ix & E). destruct (resolve_iri x) as [i| |] eqn:R; cbn [bind] in E; try discriminate.
        destruct (with_constraint [POne (datatype_kind i)] (s_constraint st)) as [ps| |] eqn:W; cbn [bind] in E; try discriminate. injection E as <-.
        apply (constraint_means _ _ _ v W) in S1. destruct S1 as [S1 S2]. split; [|exact S2]. right. exists x, i. split; [exact Ix|]. split; [apply resolve_named, R|].
        apply (proj1 right). apply (S1 (POne (datatype_kind i)) (datatype_kind i)); left; reflexivity.
      + intros [[E|(x & i & Ix & N & H)] C]; [congruence|]. destruct (Forall2_in_l _ _ _ _ M Ix) as (e & Ie & E). apply resolve_named in N. rewrite N in E. cbn [bind] in E.
        destruct (with_constraint [POne (datatype_kind i)] (s_constraint st)) as [ps| |] eqn:W; cbn [bind] in E; try discriminate. injection E as <-. exists (ANode ps). split; [exact Ie|].
        apply (constraint_means _ _ _ v W). split; [|exact C]. cbn. intros p k [<-|[]] [<-|[]]. apply (proj1 right), H.
  Qed.
  Lemma ref_means st nc r v : parse_shape_ref st nc = Ok r ->
    (value_sat eval ext g T r v <-> value_sat eval ext g T nc v /\
     match s_value_shape st with
     | None => True
     | Some s => (exists w, refers delimiter s w) -> exists w i, refers delimiter s w /\ named w i /\ T v (number i) = true
     end).
  Proof.
    unfold TxModel.parse_shape_ref. destruct (s_value_shape st) as [s|]; [|intros [= <-]; tauto].
    match goal with |- bind ?m _ = _ -> _ => destruct m as [es| |] eqn:M; cbn [bind]; try discriminate end. apply map_res_iff in M.
    assert (K : (exists e, In e es /\ sat e v) <-> exists w i, refers delimiter s w /\ named w i /\ T v (number i) = true).
    { split.
      - intros (e & I & S1). destruct (Forall2_in_r _ _ _ _ M I) as (w & Iw & E). destruct (resolve_iri w) as [i| |] eqn:R; cbn [bind] in E; try discriminate. injection E as <-.
        exists w, i. split; [apply refers_iff, Iw|]. split; [apply resolve_named, R|exact S1].
      - intros (w & i & Iw & N & H). apply refers_iff in Iw. destruct (Forall2_in_l _ _ _ _ M Iw) as (e & Ie & E). apply resolve_named in N. rewrite N in E. injection E as <-.
        eexists. split; [exact Ie|exact H]. }
    assert (NE : (exists w, refers delimiter s w) <-> es <> []).
    { split.
      - intros (w & H). apply refers_iff in H. destruct (Forall2_in_l _ _ _ _ M H) as (e & Ie & _). destruct es; [destruct Ie|discriminate].
      - intro N. destruct es as [|e es']; [congruence|]. destruct (Forall2_in_r _ _ _ _ M (or_introl eq_refl)) as (w & Iw & _). exists w. apply refers_iff, Iw. }
    rewrite NE, <- K. clear M K NE. destruct es as [|e [|e' es]].
    - intros [= <-]. split; [intro H; split; [exact H|congruence]|tauto].
    - intros [= <-]. assert (X : (([e] <> []) -> exists e0, In e0 [e] /\ sat e0 v) <-> sat e v).
      { split; [intro H; destruct H as (e0 & [<-|[]] & H); [discriminate|exact H]|intros H _; exists e; split; [left; reflexivity|exact H]]. }
      rewrite X. destruct nc as [x|]; cbn; tauto.
    - intros [= <-]. assert (X : ((e :: e' :: es <> []) -> exists e0, In e0 (e :: e' :: es) /\ sat e0 v) <-> sat (AOr (e :: e' :: es)) v).
      { rewrite sat_or. split; [intro H; apply H; discriminate|auto]. }
      rewrite X. generalize (AOr (e :: e' :: es)). intro a. destruct nc as [x|]; cbn; tauto.
  Qed.
  Lemma bounds_mandatory m n : m <> None -> (at_least (get_min m) n <-> (m = Some true -> 1 <= n)).
  Proof. destruct m as [[|]|]; cbn; [|split; [discriminate|lia]|congruence]. intros _. split; [lia|]. intro H. specialize (H eq_refl). lia. Qed.
  Lemma bounds_repeatable m n : at_most (get_max m) n <-> (m <> Some true -> n <= 1).
  Proof.
    destruct m as [[|]|]; cbn.
    - split; [congruence|]. intros _. left. reflexivity.
    - split; [intros [H|H]; [discriminate|lia]|]. intro H. right. assert (n <= 1) by (apply H; discriminate). lia.
    - split; [auto|]. intro H. apply H. discriminate.
  Qed.
  Lemma statement_means st te n : supported_statement st -> statement_to_te st = Ok te ->
    is_tc te /\ (exists p, named (s_property st) p /\ pred_of te = direct (number p)) /\
    (tc_ok eval ext g T n te <-> holds_at named delimiter number node has_datatype has_kind matches g T n st).
  Proof.
    intros (SM & SN & SD). unfold TxModel.statement_to_te. destruct (resolve_iri (s_property st)) as [p| |] eqn:R; cbn [bind]; try discriminate.
    destruct (parse_node_constraint st) as [nc| |] eqn:P; cbn [bind]; try discriminate. destruct (parse_shape_ref st nc) as [v| |] eqn:V; cbn [bind]; try discriminate.
    intros [= <-]. split; [repeat eexists|]. split; [exists p; split; [apply resolve_named, R|reflexivity]|].
    assert (OK : forall x, value_sat eval ext g T v x <-> value_ok st x).
    { intro x. rewrite (ref_means _ _ _ x V), (node_means _ _ x SD P). unfold TxSpec.value_ok, constraint_ok. rewrite SN. tauto. }
    apply resolve_named in R. cbn [tc_ok]. unfold holds_at. split.
    - intros (vs & N & I & L & M & S1). exists p, vs. split; [exact R|]. split; [exact N|]. split; [exact I|]. rewrite (bounds_mandatory _ _ SM) in L. rewrite bounds_repeatable in M. split.
      + intros E ->. specialize (L E). cbn in L. lia.
      + split; [exact M|]. intros x J. apply OK, S1, J.
    - intros (p' & vs & R' & N & I & L & M & S1). rewrite (named_fun _ _ _ R' R) in I. exists vs. split; [exact N|]. split; [exact I|]. split; [|split].
      + apply bounds_mandatory; [exact SM|]. intro E. specialize (L E). destruct vs; [congruence|cbn; lia].
      + apply bounds_repeatable, M.
      + intros x J. apply OK, S1, J.
  Qed.
  Lemma nth_error_Forall2 {A B} (R : A -> B -> Prop) l l' i b : Forall2 R l l' -> nth_error l' i = Some b -> exists a, nth_error l i = Some a /\ R a b.
  Proof.
    intro F. revert i. induction F as [|x y l l' H F IH]; intros [|i]; cbn; try discriminate; [intros [= <-]; eauto|]. apply IH.
  Qed.
  Lemma preds_distinct s tes : TxSpec.supported named s -> map_res statement_to_te (t_statements s) = Ok tes -> NoDup (map pred_of tes).
  Proof.
    intros (_ & SS & D) M. apply map_res_iff in M. apply NoDup_nth_error. intros i j Li E.
    destruct (nth_error (map pred_of tes) i) as [k|] eqn:Ei; [|apply nth_error_None in Ei; lia]. symmetry in E.
    rewrite nth_error_map in Ei, E. destruct (nth_error tes i) as [te|] eqn:Ti; cbn in Ei; [|discriminate]. destruct (nth_error tes j) as [te'|] eqn:Tj; cbn in E; [|discriminate].
    destruct (nth_error_Forall2 _ _ _ _ _ M Ti) as (st & Si & S1). destruct (nth_error_Forall2 _ _ _ _ _ M Tj) as (st' & Sj & S2).
    destruct (statement_means st te 0 (SS st (nth_error_In _ _ Si)) S1) as (_ & (p & P & K) & _). destruct (statement_means st' te' 0 (SS st' (nth_error_In _ _ Sj)) S2) as (_ & (p' & P' & K') & _).
    injection Ei as Ei. injection E as E. assert (X : direct (number p) = direct (number p')) by congruence. apply direct_inj, injective in X. subst p'. exact (D i j st st' p Si Sj P P').
  Qed.
  Lemma shape_means s e n : TxSpec.supported named s -> tapshape_to_se s = Ok e ->
    (sat e n <-> conforms named delimiter number node has_datatype has_kind matches g T s n).
  Proof.
    intros SU. pose proof SU as (EX & SS & _). unfold TxModel.tapshape_to_se. destruct (map_res statement_to_te (t_statements s)) as [tes| |] eqn:M; cbn [bind]; try discriminate.
    rewrite EX. cbn [map_res bind map]. intros [= <-]. pose proof (preds_distinct s tes SU M) as ND. apply map_res_iff in M. fold (shape_of tes). rewrite shape_iff.
    - unfold conforms. split.
      + intros H st I. destruct (Forall2_in_l _ _ _ _ M I) as (te & It & E). apply (statement_means st te n (SS st I) E). exact (H te It).
      + intros H te It. destruct (Forall2_in_r _ _ _ _ M It) as (st & I & E). apply (statement_means st te n (SS st I) E). exact (H st I).
    - intros te It. destruct (Forall2_in_r _ _ _ _ M It) as (st & I & E). apply (statement_means st te n (SS st I) E).
    - exact ND.
  Qed.
  End Typing.

  (** ** schemas *)
  Lemma te_simple st te : supported_statement st -> statement_to_te st = Ok te ->
    exists p v, te = ATc None None (number p) v (get_min (s_mandatory st)) (get_max (s_repeatable st)) [] /\
      forall e, v = Some e -> no_inclusion e /\ forall x, within x e -> match x with AShape _ _ _ _ | ANot _ => False | _ => True end.
  Proof.
    intros _. unfold TxModel.statement_to_te. destruct (resolve_iri (s_property st)) as [p| |]; cbn [bind]; try discriminate.
    destruct (parse_node_constraint st) as [nc| |] eqn:P; cbn [bind]; try discriminate. destruct (parse_shape_ref st nc) as [v| |] eqn:V; cbn [bind]; try discriminate.
    intros [= <-]. exists p, v. split; [reflexivity|].
    set (simple := fun e => no_inclusion e /\ forall x, within x e -> match x with AShape _ _ _ _ | ANot _ => False | _ => True end).
    change (forall e, v = Some e -> simple e).
    assert (SO : forall l, (forall e, In e l -> simple e) -> simple (AOr l)).
    { intros l H. split.
      - cbn. induction l as [|e l IH]; [exact Logic.I|]. split; [apply H; left; reflexivity|]. apply IH. intros x I. apply H. right. exact I.
      - intros x W. inversion W as [|? ? e' I W'| | |]; subst; [exact Logic.I|]. destruct (H e' I) as [_ H']. exact (H' x W'). }
    assert (SA : forall a b, simple a -> simple b -> simple (AAnd [a; b])).
    { intros a b [A1 A2] [B1 B2]. split; [cbn; auto|]. intros x W. inversion W as [| |? ? e' I W'| |]; subst; [exact Logic.I|]. destruct I as [<-|[<-|[]]]; [exact (A2 x W')|exact (B2 x W')]. }
    assert (SN : forall ps, simple (ANode ps)) by (intro ps; split; [exact Logic.I|]; intros x W; inversion W; exact Logic.I).
    assert (SR : forall r, simple (ARef r)) by (intro r; split; [exact Logic.I|]; intros x W; inversion W; exact Logic.I).
    assert (NC : forall e, nc = Some e -> simple e).
    { intros e ->. revert P. unfold TxModel.parse_node_constraint. destruct (s_datatypes st) as [|d [|d' ds]].
      - destruct (s_constraint st) as [c|]; [|discriminate]. destruct (with_constraint [] (Some c)) as [ps| |]; cbn [bind]; try discriminate. intros [= <-]. apply SN.
      - destruct (resolve_iri d) as [i| |]; cbn [bind]; try discriminate. destruct (with_constraint _ _) as [ps| |]; cbn [bind]; discriminate.
      - match goal with |- bind ?m _ = _ -> _ => destruct m as [es| |] eqn:M; cbn [bind]; try discriminate end. intros [= <-]. apply SO. apply map_res_iff in M.
        intros e I. destruct (Forall2_in_r _ _ _ _ M I) as (x & _ & E). destruct (resolve_iri x) as [i| |]; cbn [bind] in E; try discriminate.
        destruct (with_constraint _ _) as [ps| |]; cbn [bind] in E; try discriminate. injection E as <-. apply SN. }
    intros e ->. revert V. unfold TxModel.parse_shape_ref. destruct (s_value_shape st) as [s|]; [|intros [= ->]; apply NC; reflexivity].
    match goal with |- bind ?m _ = _ -> _ => destruct m as [es| |] eqn:M; cbn [bind]; try discriminate end. apply map_res_iff in M.
    assert (SE : forall e, In e es -> simple e).
    { intros x I. destruct (Forall2_in_r _ _ _ _ M I) as (w & _ & E). destruct (resolve_iri w) as [i| |]; cbn [bind] in E; try discriminate. injection E as <-. apply SR. }
    destruct es as [|a [|b es]].
    - intros [= ->]. apply NC. reflexivity.
    - intros [= <-]. destruct nc as [x|]; [apply SA; [apply NC; reflexivity|]|]; apply SE; left; reflexivity.
    - intros [= <-]. destruct nc as [x|]; [apply SA; [apply NC; reflexivity|]|]; apply SO; exact SE.
  Qed.
  Definition plain (v : option ase) : Prop :=
    forall e, v = Some e -> no_inclusion e /\ forall x, within x e -> match x with AShape _ _ _ _ | ANot _ => False | _ => True end.
  Lemma se_parts s e : TxSpec.supported named s -> tapshape_to_se s = Ok e ->
    exists tes, e = shape_of tes /\ map_res statement_to_te (t_statements s) = Ok tes /\
      (forall te, In te tes -> exists p v mn mx, te = ATc None None p v mn mx [] /\ plain v) /\
      forall x, within x e -> x = e \/ match x with AShape _ _ _ _ | ANot _ => False | _ => True end.
  Proof.
    intros (EX & SS & _). unfold TxModel.tapshape_to_se. destruct (map_res statement_to_te (t_statements s)) as [tes| |] eqn:M; cbn [bind]; try discriminate.
    rewrite EX. cbn [map_res bind map]. intros [= <-]. apply map_res_iff in M. fold (shape_of tes). exists tes. split; [reflexivity|]. split; [reflexivity|].
    assert (TE : forall te, In te tes -> exists p v mn mx, te = ATc None None p v mn mx [] /\ plain v).
    { intros te I. destruct (Forall2_in_r _ _ _ _ M I) as (st & Is & E). destruct (te_simple st te (SS st Is) E) as (p & v & -> & H). repeat eexists; eapply H; eassumption. }
    split; [exact TE|]. intros x W. unfold shape_of in W |- *. destruct tes as [|te0 r0] eqn:Et; [inversion W; left; reflexivity|]. rewrite <- Et in *.
    inversion W as [| | | |? ? ? te ? WT]; [left; reflexivity|]. right. inversion WT as [? ? ? te1 ? ? ? I W1| |].
    destruct (TE _ I) as (p & v & mn' & mx' & Ev & HV). rewrite Ev in W1, I. destruct v as [v|]; [|inversion W1]. apply (proj2 (HV v eq_refl)). inversion W1; assumption.
  Qed.
  Lemma se_simple s e : TxSpec.supported named s -> tapshape_to_se s = Ok e -> no_inclusion e /\ in_fragment e.
  Proof.
    intros SU E. destruct (se_parts s e SU E) as (tes & -> & M & TE & WI). pose proof (preds_distinct (fun _ _ => true) s tes SU M) as ND.
    assert (every : forall P : ate -> Prop, (forall p v mn mx, plain v -> P (ATc None None p v mn mx [])) -> forall te, In te tes -> P te).
    { intros P H te I. destruct (TE te I) as (p & v & mn & mx & -> & HV). apply H, HV. }
    split.
    - unfold shape_of. destruct tes as [|te0 r0] eqn:Et; [exact Logic.I|]. rewrite <- Et in *. cbn.
      assert (Z := every no_inclusion_te (fun p v mn mx HV => match v as v' return plain v' -> no_inclusion_te (ATc None None p v' mn mx []) with Some e => fun HV => proj1 (HV e eq_refl) | None => fun _ => Logic.I end HV)).
      clear -Z. induction tes as [|te l IH]; [exact Logic.I|]. split; [apply Z; left; reflexivity|]. apply IH. intros x I. apply Z. right. exact I.
    - intros x W. destruct (WI x W) as [->|H]; [|destruct x; try exact H; destruct H].
      unfold shape_of. split; [reflexivity|]. destruct tes as [|te0 r0] eqn:Et; [discriminate|]. rewrite <- Et in *. split; [|split; [|split; [|split]]].
      + cbn. split; [exists 1; lia|]. assert (Z := every sensible (fun p v mn mx HV => Logic.I)).
        clear -Z. induction tes as [|te l IH]; [exact Logic.I|]. split; [apply Z; left; reflexivity|]. apply IH. intros x I. apply Z. right. exact I.
      + cbn. left. split; [split; left; reflexivity|]. assert (Z := every shallow_bounds (fun p v mn mx HV => Logic.I)).
        clear -Z. induction tes as [|te l IH]; [exact Logic.I|]. split; [apply Z; left; reflexivity|]. apply IH. intros x I. apply Z. right. exact I.
      + left. assert (Z := every (fun te => predicates te = [pred_of te]) (fun p v mn mx HV => eq_refl)). enough (P : predicates (AEach None tes None None []) = map pred_of tes) by (rewrite P; exact ND).
        cbn. clear -Z. induction tes as [|te l IH]; [reflexivity|]. cbn [map]. rewrite IH by (intros x I; apply Z; right; exact I). rewrite (Z te (or_introl eq_refl)). reflexivity.
      + intros k v acts HC. inversion HC as [|? ? te ? ? ? I HC'|]; subst. destruct (TE te I) as (p & v' & mn' & mx' & -> & _). inversion HC'; subst. split; [|split; [left; reflexivity|intros q []]].
        change (is_direct (direct p) = true). unfold is_direct, direct. rewrite Nat.even_mul. reflexivity.
      + discriminate.
  Qed.
  Lemma decl_inv s d : tapshape_to_decl s = Ok d -> exists id i e, t_id s = Some id /\ named id i /\ tapshape_to_se s = Ok e /\ d = mkDecl (number i) e false.
  Proof.
    unfold TxModel.tapshape_to_decl. destruct (t_id s) as [id|]; [|discriminate]. destruct (resolve_iri id) as [i| |] eqn:R; cbn [bind]; try discriminate.
    destruct (tapshape_to_se s) as [e| |] eqn:E; cbn [bind]; try discriminate. intros [= <-]. exists id, i, e. repeat split. apply resolve_named, R.
  Qed.
  Section Schema.
  Variable tap : list tapshape.
  Variable sch : aschema.
  Hypothesis CO : convert tap = Ok sch.
  Hypothesis SU : forall s, In s tap -> TxSpec.supported named s.
  Lemma declared_iff l e : declared [] sch l e <-> exists s, In s tap /\ TxSpec.labelled named number s l /\ tapshape_to_se s = Ok e.
  Proof.
    unfold TxModel.convert in CO. destruct (map_res tapshape_to_decl tap) as [ds| |] eqn:M; cbn [bind] in CO; try discriminate. injection CO as <-. apply map_res_iff in M.
    unfold declared, TxSpec.labelled. cbn [a_start a_shapes app]. split.
    - intros [(a & d & [<-|[]] & I & <- & <-)|[_ [=]]]. cbn in I. destruct (Forall2_in_r _ _ _ _ M I) as (s & Is & E). apply decl_inv in E as (id & i & e & Ei & N & Ee & ->). exists s. split; [exact Is|]. cbn. split; [exists id, i; auto|exact Ee].
    - intros (s & Is & (id & i & Ei & N & ->) & Ee). left. destruct (Forall2_in_l _ _ _ _ M Is) as (d & Id & E). apply decl_inv in E as (id' & i' & e' & Ei' & N' & Ee' & ->).
      rewrite Ei in Ei'. injection Ei' as <-. rewrite Ee in Ee'. injection Ee' as <-. rewrite (named_fun _ _ _ N N'). eexists _, _. split; [left; reflexivity|]. split; [exact Id|]. split; reflexivity.
  Qed.
  Lemma declared_simple l e : declared [] sch l e -> no_inclusion e.
  Proof. intro D. apply declared_iff in D as (s & I & _ & E). exact (proj1 (se_simple s e (SU s I) E)). Qed.
  Theorem means n l : has_shape eval ext g [] sch n l <-> has_tap_shape named delimiter number node has_datatype has_kind matches g tap n l.
  Proof.
    unfold has_shape, has_tap_shape. split; intros (T & Tn & H); exists T; (split; [exact Tn|]); intros m j Tm; destruct (H m j Tm) as (x & D & S1).
    - apply (defines_declared sch j x declared_simple) in D. apply declared_iff in D as (s & I & L & E). exists s. split; [exact I|]. split; [exact L|]. apply (shape_means T s x m (SU s I) E), S1.
    - destruct S1 as [L S1]. assert (X : exists y, tapshape_to_se x = Ok y).
      { pose proof (proj1 (convert_ok tap) (ex_intro _ sch CO) x D) as C. apply decl_ok in C as (d & E). apply decl_inv in E as (? & ? & y & ? & ? & E & ?). exists y. exact E. }
      destruct X as (e & E). exists e. split; [apply (defines_declared sch j e declared_simple), declared_iff; exists x; auto|]. apply (shape_means T x e m (SU x D) E), S1.
  Qed.
  Theorem fragment : all_in_fragment [] sch.
  Proof.
    split.
    - intros a d [<-|[]] I. unfold TxModel.convert in CO. destruct (map_res tapshape_to_decl tap) as [ds| |] eqn:M; cbn [bind] in CO; try discriminate. injection CO as <-. apply map_res_iff in M.
      cbn in I. destruct (Forall2_in_r _ _ _ _ M I) as (s & _ & E). apply decl_inv in E as (? & ? & e & ? & ? & ? & ->). reflexivity.
    - intros l e D. apply (defines_declared sch l e declared_simple) in D. apply declared_iff in D as (s & I & _ & E). exact (proj2 (se_simple s e (SU s I) E)).
  Qed.
  Theorem unlabelled d closed extra te0 extends r te : In d (a_shapes sch) -> within (AShape closed extra (Some te0) extends) (d_expr d) -> ~ labelled_in r te te0.
  Proof.
    intros I W L. unfold TxModel.convert in CO. destruct (map_res tapshape_to_decl tap) as [ds| |] eqn:M; cbn [bind] in CO; try discriminate. injection CO as <-. apply map_res_iff in M.
    cbn in I. destruct (Forall2_in_r _ _ _ _ M I) as (s & Is & E). apply decl_inv in E as (id & i & e & Ei & N & Ee & ->). cbn [d_expr] in W.
    destruct (se_parts s e (SU s Is) Ee) as (tes & -> & _ & TE & WI). destruct (WI _ W) as [Q|[]]. unfold shape_of in Q. destruct tes as [|te1 r1] eqn:Et; [discriminate|]. rewrite <- Et in *.
    injection Q as _ _ -> _. inversion L as [| | |? ? te2 ? ? ? I2 L2|]; subst; try discriminate. destruct (TE _ I2) as (p & v & mn' & mx' & -> & _). inversion L2; subst; discriminate.
  Qed.
  End Schema.
End Convert.
