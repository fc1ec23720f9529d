(* Lemmas about the conformance metrics of generated data. *)
From Coq Require Import List String Ascii Bool ZArith QArith Permutation Lia.
Import ListNotations.
From Verif Require Import SjModel CoModel CoSpec SqModel SqSpec SqLemmas GenModel GenSpec GenLemmas GenNames GenEntity GenGraph GenWhole CmModel CmSpec CmLemmas.
Open Scope string_scope.
Open Scope Z_scope.

Section Gen.
Context {L : lib} {G : glib} {F : nums}.
Variable ord : forall A : Type, list (string * A) -> list (string * A).
Hypothesis ord_perm : forall A (l : list (string * A)), Permutation (ord A l) l.
Variable checks : bool.
Variable rand : nat -> N.
Variable cfg : config.
Let other_facet : facet -> string -> Prop := fun _ _ => True.
Let in_set : list SjModel.value -> term -> Prop := fun _ _ => True.
Notation own := (own other_facet in_set).

Lemma structure ds : easy_schema ds -> whole_entities cfg -> texts -> divides cfg ->
  exists R, generate_shex ord checks rand cfg ds = Ok (List.concat (List.map snd R)) /\ NoDup (List.map fst R) /\
    forall r, In r R -> exists d, In d ds /\ label_of d = fst (fst r) /\ 0 <= snd (fst r) /\ own d (snd (fst r)) (snd r).
Proof.
  intros E W T D. pose proof (easy_shapes ord ord_perm ds E) as PS. pose proof (easy_labels ds E) as NL. destruct E as [Fe _]. rewrite Forall_forall in Fe.
  unfold generate_shex. set (shapes := set_shapes _) in *. clearbody shapes.
  assert (Keys : Permutation (List.map fst shapes) (List.map label_of ds)). { rewrite PS, map_map. reflexivity. }
  assert (NK : NoDup (List.map fst shapes)) by (rewrite Keys; exact NL).
  assert (Find : forall id, In id (List.map label_of ds) -> exists d, In d ds /\ label_of d = id /\ find (fun d => String.eqb (label_of d) id) ds = Some d).
  { intros id I. destruct (find (fun d => String.eqb (label_of d) id) ds) as [d|] eqn:Ef.
    - apply find_some in Ef. destruct Ef as [I' E']. apply String.eqb_eq in E'. exists d. auto.
    - apply in_map_iff in I. destruct I as (d & E' & I'). pose proof (find_none _ _ Ef d I') as H. cbn in H. rewrite E', String.eqb_refl in H. discriminate. }
  assert (Lk : forall d, In d ds -> lookup (label_of d) shapes = Some (info_of d)).
  { intros d I. apply lookup_some; [exact NK|]. rewrite PS. apply in_map_iff. exists d. auto. }
  destruct (counts_fine ord ord_perm cfg shapes NK D) as (cs & Ec & Pc & Nonneg & Al).
  set (fnd := fun id => find (fun d => String.eqb (label_of d) id) ds).
  assert (Run : always (fun ts => exists R, ts = List.concat (List.map snd R) /\ all_entities other_facet in_set fnd (ord _ cs) R)
                  (generate_data ord checks rand cfg shapes)).
  { unfold generate_data. eapply always_bind with (P := eq cs); [intro n; unfold lift; rewrite Ec; eexists _, _; split; reflexivity|]. intros ? <-.
    eapply always_bind; [apply (entities_always checks rand cfg other_facet in_set shapes fnd (ord _ cs)); [exact T|exact W|]|].
    - intros e I. assert (I' : In (fst e) (List.map label_of ds)). { rewrite <- Keys, <- Pc. apply in_map. rewrite <- ord_perm. exact I. }
      destruct (Find _ I') as (d & Id & El & Ef). exists d. split; [apply Fe, Id|]. split; [exact Ef|]. split; [exact El|]. rewrite <- El. apply Lk, Id.
    - intros ts (R & -> & A). eapply always_bind; [apply (nothing_related ord ord_perm)|].
      + apply Forall_forall. intros e I. rewrite PS in I. apply in_map_iff in I. destruct I as (d & <- & _). reflexivity.
      + intros ? <-. apply always_ret. exists R. rewrite app_nil_r. auto. }
  destruct (Run 0%nat) as (ts & n' & Er & R & -> & [M A]). rewrite Er. cbn [rmap fst]. exists R. split; [reflexivity|].
  split. { rewrite M. apply nodup_pairs. rewrite (Permutation_map fst (ord_perm _ cs)), Pc. exact NK. }
  rewrite Forall_forall in A. intros r I. destruct (A r I) as (d & Fd & Ld & O). unfold fnd in Fd. apply find_some in Fd. destruct Fd as [Id _]. exists d. repeat (split; [assumption|]).
  split; [|exact O]. assert (J : In (fst r) (List.map fst R)) by (apply in_map, I). rewrite M in J. apply in_flat_map in J. destruct J as ([id n] & _ & J). apply in_map_iff in J. destruct J as (k & Ek & J). rewrite <- Ek. apply in_upto in J. cbn. lia.
Qed.

Definition uprop_of (c : cons) : uprop :=
  {| u_iri := c_name c; u_cons := convert_node_constraint (c_node c); u_min := fst (convert_cardinality (snd (fst c)) (snd c));
     u_max := snd (convert_cardinality (snd (fst c)) (snd c)) |}.
Lemma easy_uprops te : easy te -> extract_properties te = List.map uprop_of (flat te).
Proof.
  induction te as [id l mn mx a x Fl|id l mn mx a x Fl|id neg inv p ve mn mx a x|l] using texpr_ind'; intro E; cbn [easy] in E; try (destruct E; fail).
  - destruct E as [_ E]. apply fold_and in E. cbn [extract_properties flat]. induction Fl as [|te l IH Fl IH']; cbn; [reflexivity|]. inversion E as [|? ? E1 E2]; subst. rewrite map_app, (IH E1), (IH' E2). reflexivity.
  - destruct E as (_ & _ & (i & -> & _) & (n & -> & _) & _). reflexivity.
Qed.
Lemma easy_converted ds : easy_schema ds -> convert_shapes ds = List.map (fun d => (label_of d, convert_decl d)) ds.
Proof. intro E. apply (put_all label_of convert_decl ds []). apply (easy_labels ds E). Qed.
Lemma easy_props d : easy_decl d -> u_props (convert_decl d) = List.map uprop_of (match te_of d with Some te => flat te | None => [] end) /\
  NoDup (List.map c_name (match te_of d with Some te => flat te | None => [] end)).
Proof.
  intros (_ & closed & extra & te & a & n & Ex & _ & Es). unfold convert_decl, te_of. rewrite Ex. cbn. destruct te as [te|]; [|split; [reflexivity|constructor]].
  destruct (Es te eq_refl) as [Ete Nte]. split; [apply easy_uprops, Ete|]. destruct (easy_flat te Ete) as (_ & _ & Names & _). rewrite Names in Nte. rewrite <- map_map in Nte. apply NoDup_map_inv in Nte. exact Nte.
Qed.
Lemma easy_plain ds : easy_schema ds -> plain (convert_shapes ds).
Proof.
  intro E. pose proof (easy_labels ds E) as NL. rewrite (easy_converted ds E). split; [rewrite map_map; exact NL|].
  intros c sh I. apply in_map_iff in I. destruct I as (d & Eq & I). injection Eq as <- <-. destruct E as [Fe _]. rewrite Forall_forall in Fe. destruct (easy_props d (Fe d I)) as [-> N]. rewrite map_map. exact N.
Qed.

Lemma bounds_small fs lo hi : allowed fs lo hi -> small lo -> small hi -> forall f n b, In f fs ->
  f = FMinIn n \/ f = FMinEx n \/ f = FMaxIn n \/ f = FMaxEx n -> number n b -> exact b.
Proof.
  intros A S1 S2 f n b I E N. unfold exact, small in *. assert (X : forall f' b', lower f' b' -> f' = f -> b = b' \/ b = b' - 1).
  { intros f' b' [(m & -> & H)|(m & c & -> & H & ->)] <-; destruct E as [E|[E|[E|E]]]; try discriminate; injection E as ->; unfold number in *; rewrite N in H; injection H as <-; lia. }
  assert (Y : forall f' b', upper f' b' -> f' = f -> b = b' \/ b = b' + 1).
  { intros f' b' [(m & -> & H)|(m & c & -> & H & ->)] <-; destruct E as [E|[E|[E|E]]]; try discriminate; injection E as ->; unfold number in *; rewrite N in H; injection H as <-; lia. }
  destruct A; repeat (destruct I as [I|I]; [first [pose proof (X _ _ H I); lia | pose proof (Y _ _ H I); lia | pose proof (X _ _ H0 I); lia | pose proof (Y _ _ H0 I); lia]|]); destruct I.
Qed.

Lemma met_satisfies g n o : reads_integers -> easy_node n -> node_met other_facet in_set n o -> forall k, In k (convert_node_constraint n) -> satisfies g k (as_term o).
Proof.
  intros (real & Rd & Le & Lt) (d & D & _ & _ & K & Fs) (M1 & M2 & M3 & _) k I. unfold convert_node_constraint in I. rewrite D in I. destruct (M1 _ D) as (s & i & -> & St). cbn in St. subst i.
  cbn [app] in I. destruct I as [<-|I]; [exists s; reflexivity|]. apply in_app_or in I. destruct I as [I|I].
  { destruct K as [K|K]; rewrite K in I; [destruct I|]. destruct I as [<-|[]]. cbn. auto. }
  destruct (n_facets n) as [fs|] eqn:Ef; [|destruct I]. destruct Fs as [->|[_ (lo & hi & A & _ & S1 & S2)]]; [destruct I|].
  apply in_flat_map in I. destruct I as (f & If & I). destruct (M3 fs f eq_refl If) as (s' & d' & Eo & Me). injection Eo as <- <-.
  pose proof (bounds_small fs lo hi A S1 S2 f) as Bd.
  destruct f; cbn in I; try (destruct I; fail); try (destruct I as [<-|[]]).
  all: try (cbn in Me; destruct Me as (z & b & Dz & Nb & Hz); cbn [satisfies as_term]; unfold compares; exists s, d, (show_fnum n0), None, (real z), (real b);
    split; [reflexivity|]; split; [reflexivity|]; split; [apply Rd; left; exact Dz|]; split; [apply Rd; right; exact Nb|];
    first [apply Le; exact Hz | apply Lt; [exact Hz|]; first [left; eapply Bd; eauto; fail | right; eapply Bd; eauto; fail]]).
  all: exfalso; destruct A; repeat (destruct If as [If|If]; [subst; repeat match goal with H : lower _ _ |- _ => destruct H as [(? & ? & _)|(? & ? & ? & _)]; try discriminate | H : upper _ _ |- _ => destruct H as [(? & ? & _)|(? & ? & ? & _)]; try discriminate end|]); destruct If.
Qed.

Theorem generated ds : easy_schema ds -> whole_entities cfg -> texts -> divides cfg -> reads_integers ->
  exists ts, generate_shex ord checks rand cfg ds = Ok ts /\
    forall g, graph_of ts g -> one_type g /\ forall t, In t g -> valid (convert_shapes ds) g t.
Proof.
  intros E W T D RI. destruct (structure ds E W T D) as (R & Er & NR & HR). exists (List.concat (List.map snd R)). split; [exact Er|]. intros g [Ng Hg].
  pose proof (easy_labels ds E) as NL. pose proof (easy_converted ds E) as Cv. destruct E as [Fe _]. rewrite Forall_forall in Fe.
  assert (Mem : forall t, In t g <-> exists r t', In r R /\ In t' (snd r) /\ t = as_triple t').
  { intro t. rewrite Hg. split.
    - intros (t' & I & ->). apply in_concat in I. destruct I as (l & I & J). apply in_map_iff in I. destruct I as (r & <- & I). eauto.
    - intros (r & t' & I & J & ->). exists t'. split; [|reflexivity]. apply in_concat. exists (snd r). split; [apply in_map, I|exact J]. }
  assert (Same : forall r r' t t', In r R -> In r' R -> In t (snd r) -> In t' (snd r') -> tr_s t = tr_s t' -> r = r').
  { intros r r' t t' I I' J J' Eq. destruct (HR r I) as (d & Id & Ld & P & O), (HR r' I') as (d' & Id' & Ld' & P' & O').
    rewrite (proj1 (own_subjects _ _ _ _ _ O t J)), (proj1 (own_subjects _ _ _ _ _ O' t' J')) in Eq. apply entity_inj in Eq; [|lia|lia]. destruct Eq as [Q1 Q2].
    assert (Eq : fst r = fst r'). { destruct r as [[a b] c], r' as [[a' b'] c']; cbn in *. f_equal; [congruence|lia]. }
    clear -NR I I' Eq. revert NR. induction R as [|x l IH]; intro N; [destruct I|]. cbn in N. inversion N as [|? ? N1 N2]; subst. destruct I as [->|I], I' as [->|I']; auto.
    - exfalso. apply N1. rewrite Eq. apply in_map, I'.
    - exfalso. apply N1. rewrite <- Eq. apply in_map, I. }
  split.
  - intros s c c' H H'. apply Mem in H, H'. destruct H as (r & t & I & J & Et), H' as (r' & t' & I' & J' & Et'). destruct t as [ts tp to], t' as [ts' tp' to']. unfold as_triple in *. cbn in *.
    injection Et as -> Ep Eo. injection Et' as Es' Ep' Eo'. pose proof (Same _ _ _ _ I I' J J' Es') as ->. destruct (HR r' I') as (d & Id & Ld & _ & O).
    destruct (proj2 (own_subjects _ _ _ _ _ O _ J) (eq_sym Ep)) as [Q|Q]; [|destruct (Q (Fe d Id))]. destruct (proj2 (own_subjects _ _ _ _ _ O _ J') (eq_sym Ep')) as [Q'|Q']; [|destruct (Q' (Fe d Id))].
    cbn in Q, Q'. rewrite Q in Eo. rewrite Q' in Eo'. cbn in Eo, Eo'. congruence.
  - intros t It. apply Mem in It. destruct It as (r & t' & Ir & It & ->). destruct (HR r Ir) as (d & Id & Ld & P & O). destruct O as (l & rest & El & Pm & Fl & Fr). rewrite Forall_forall in Fl.
    assert (Inm : In (label_of d, convert_decl d) (convert_shapes ds)) by (rewrite Cv; apply (in_map (fun d => (label_of d, convert_decl d))), Id).
    rewrite El in It. destruct It as [<-|It].
    + left. split; [reflexivity|]. exists (label_of d), (convert_decl d). auto.
    + right. apply in_props in It. destruct It as (e & o & Ie & Io & ->). destruct (Fl e Ie) as (c & Ic & Ec & En & Vals). pose proof (easy_conses d (Fe d Id)) as Fc. rewrite Forall_forall in Fc. destruct (Fc c Ic) as (Nc & Enc & Rc).
      destruct (easy_props d (Fe d Id)) as [Pr Nn].
      cbn [as_triple m_p m_s m_o tr_p tr_s tr_o]. rewrite Ec. split; [exact Nc|]. exists (label_of d), (convert_decl d), (uprop_of c).
      split. { apply Mem. exists r. eexists. split; [exact Ir|]. rewrite El. split; [left; reflexivity|]. reflexivity. }
      split; [exact Inm|]. split; [rewrite Pr; apply in_map, Ic|]. split; [reflexivity|]. split.
      * intros n Mx ls Nls Hls. assert (Le : (List.length ls <= List.length (snd e))%nat).
        { rewrite <- (map_length (fun o => {| m_s := MIri (entity_iri (label_of d) (snd (fst r) + 1)); m_p := c_name c; m_o := as_term o |}) (snd e)). apply NoDup_incl_length; [exact Nls|].
          intros t I. destruct (Hls t I) as (I1 & I2 & I3). apply Mem in I1. destruct I1 as (r' & t' & Ir' & It' & ->). cbn in I2, I3. injection I2 as I2.
          assert (Hd : In {| tr_s := entity_iri (label_of d) (snd (fst r) + 1); tr_p := rdf_type; tr_o := TmIri (label_of d) |} (snd r)) by (rewrite El; left; reflexivity).
          pose proof (Same r' r t' _ Ir' Ir It' Hd I2) as ->. rewrite El in It'. destruct It' as [<-|It']; [destruct (Nc (eq_sym I3))|]. apply in_props in It'. destruct It' as (e' & o' & Ie' & Io' & ->). cbn in I3.
          assert (Np : NoDup (List.map p_iri (List.map fst l ++ rest))).
          { rewrite <- Pm. unfold info_of. cbn [i_props]. destruct (te_of d); [rewrite map_map; exact Nn|constructor]. }
          assert (e' = e). { rewrite map_app in Np. apply nodup_l in Np. rewrite map_map in Np. apply (in_names_apart (fun e => p_iri (fst e)) l Np); auto. rewrite I3, Ec. reflexivity. } subst e'.
          apply in_map_iff. exists o'. split; [|exact Io']. unfold as_triple. cbn. rewrite I3. reflexivity. }
        cbn in Mx. destruct En as [_ En]. destruct (snd c) as [m|]; [|discriminate]. destruct (Z.leb_spec 0 m); [|discriminate]. injection Mx as <-. lia.
      * intros k Ik. rewrite Forall_forall in Vals. exact (met_satisfies g (c_node c) o RI Enc (Vals o Io) k Ik).
Qed.
End Gen.
