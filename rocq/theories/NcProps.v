(** C52: a node satisfies a node constraint exactly when it satisfies each of its parts. *)
From Coq Require Import ZArith NArith QArith List Bool Lia String.
Import ListNotations.
From Verif Require Import NumModel NumSpec NumLemmas LitModel LitSpec LitLemmas LitProps VsModel VsSpec VsLemmas VsProps NcModel NcSpec.
Local Open Scope list_scope.

Lemma kind_ok_spec k o : kind_ok k o = true <-> has_kind k o.
Proof.
  destruct k, o; cbn [kind_ok has_kind]; split; try discriminate; try reflexivity; eauto; try (intros [x X]; discriminate).
  - intro H. exfalso. apply (H l eq_refl).
Qed.

Lemma options2cond_spec L dt rx os o : matches L dt rx (options2cond os) o = true <-> forall c, In (Some c) os -> matches L dt rx c o = true.
Proof.
  unfold options2cond. set (cs := flat_map _ os).
  assert (I : forall c, In c cs <-> In (Some c) os).
  { intro c. unfold cs. rewrite in_flat_map. split; [intros (x & Hx & Hc); destruct x; [destruct Hc as [<-|[]]; exact Hx|destruct Hc]|].
    intro H. exists (Some c). split; [exact H|left; reflexivity]. }
  assert (G : matches L dt rx (CAnd cs) o = true <-> forall c, In (Some c) os -> matches L dt rx c o = true).
  { cbn [matches]. rewrite forallb_forall. split; intros H c Hc; apply H, I, Hc. }
  destruct cs as [|c [|c2 cs]]; [split; [intros _; apply G; reflexivity|reflexivity]| |exact G].
  rewrite <- G. cbn [matches forallb]. rewrite andb_true_r. reflexivity.
Qed.

Lemma optional_done {A B} (f : A -> outcome B) o r : optional f o = Done r -> match o with None => r = None | Some a => exists b, f a = Done b /\ r = Some b end.
Proof. destruct o as [a|]; cbn [optional]; [|intro H; injection H as <-; reflexivity]. destruct (f a); cbn [bind]; intro H; try discriminate. injection H as <-. eauto. Qed.

Lemma denotes_fun resolve i s s' : iri_denotes resolve i s -> iri_denotes resolve i s' -> s = s'.
Proof. destruct i; cbn; congruence. Qed.

Lemma resolved_values resolve L vs vs' o : Forall plain_exclusions vs -> create_value_set resolve vs = Done vs' ->
  (check_value L vs' o = true <-> exists v v', In v vs /\ resolved resolve v v' /\ match_value L v' o = true).
Proof.
  intros P C. apply (C49_compile_partial resolve vs vs' P) in C. unfold check_value. rewrite existsb_exists.
  assert (U : forall v a b, plain_exclusions v -> resolved resolve v a -> resolved resolve v b -> a = b).
  { intros v a b Pv A B. apply cnv_value_spec in A, B; auto. congruence. }
  revert P. induction C as [|v v' vs vs' R C IH]; intro P.
  - split; [intros (x & [] & _)|intros (v & v' & [] & _)].
  - inversion P as [|? ? P1 P2]; subst. specialize (IH P2). split.
    + intros (x & [<-|Hx] & M); [exists v, v'; split; [left; reflexivity|]; auto|].
      destruct (proj1 IH) as (w & w' & Hw & Rw & Mw); [exists x; auto|]. exists w, w'. split; [right; exact Hw|auto].
    + intros (w & w' & [<-|Hw] & Rw & M).
      * exists v'. split; [left; reflexivity|]. rewrite (U v v' w' P1 R Rw). exact M.
      * destruct (proj2 IH) as (x & Hx & Mx); [exists w, w'; auto|]. exists x. split; [right; exact Hx|exact Mx].
Qed.

(** C52: a compiled node constraint is satisfied exactly when every part of it is. Full statement: also with
    prefixed names in exclusions, which make the compilation panic (C49). *)
Theorem C52_all_parts_partial L resolve dt rx nc c o : plain_values nc -> cnv_node_constraint resolve nc = Done c ->
  (matches L dt rx c o = true <-> satisfies L resolve dt rx nc o).
Proof.
  intros P H. unfold cnv_node_constraint in H.
  destruct (optional (create_value_set resolve) (nc_values nc)) as [vs| |] eqn:V; cbn [bind] in H; try discriminate.
  destruct (optional (cnv_iri_ref resolve) (nc_datatype nc)) as [d| |] eqn:D; cbn [bind] in H; try discriminate.
  injection H as <-. rewrite options2cond_spec. apply optional_done in V, D. unfold satisfies. split.
  - intro M. split; [|split; [|split]].
    + intros k K. apply kind_ok_spec. apply (M (CKind k)). rewrite K. left. reflexivity.
    + intros i s I N. rewrite I in D. destruct D as (b & Db & ->). apply cnv_iri_ref_spec in Db. rewrite (denotes_fun resolve i s b N Db).
      apply (M (CDatatype b)). right. left. reflexivity.
    + intros fs f F Hf. assert (A : matches L dt rx (CAnd (map CFacet fs)) o = true) by (apply M; rewrite F; right; right; left; reflexivity).
      cbn [matches] in A. rewrite forallb_forall in A. apply (A (CFacet f)). apply in_map, Hf.
    + intros vs0 E. rewrite E in V. destruct V as (vs' & C & ->). apply (resolved_values resolve L vs0 vs' o); [apply P, E|exact C|].
      apply (M (CValues vs')). right. right. right. left. reflexivity.
  - intros (K & DT & F & VS) c0 Hc. cbn [In] in Hc. destruct Hc as [E|[E|[E|[E|[]]]]].
    + destruct (nc_kind nc) as [k|]; [|discriminate]. injection E as <-. apply kind_ok_spec, K. reflexivity.
    + destruct (nc_datatype nc) as [i|]; [|subst d; discriminate]. destruct D as (b & Db & ->). injection E as <-. apply (DT i b eq_refl). apply cnv_iri_ref_spec, Db.
    + destruct (nc_facets nc) as [fs|]; [|discriminate]. injection E as <-. cbn [matches]. apply forallb_forall. intros x Hx. apply in_map_iff in Hx as (f & <- & Hf).
      apply (F fs f eq_refl Hf).
    + destruct (nc_values nc) as [vs0|] eqn:NV; [|subst vs; discriminate]. destruct V as (vs' & C & ->). injection E as <-.
      apply (resolved_values resolve L vs0 vs' o); [apply P, NV|exact C|]. apply VS. reflexivity.
Qed.
Print Assumptions C52_all_parts_partial.

(** C52: the compilation succeeds exactly when all names resolve *)
Theorem C52_compiles_partial resolve nc : plain_values nc -> ((exists c, cnv_node_constraint resolve nc = Done c) <-> well_named resolve nc).
Proof.
  intro P. unfold cnv_node_constraint, well_named. split.
  - intros [c H]. destruct (optional (create_value_set resolve) (nc_values nc)) as [vs| |] eqn:V; cbn [bind] in H; try discriminate.
    destruct (optional (cnv_iri_ref resolve) (nc_datatype nc)) as [d| |] eqn:D; cbn [bind] in H; try discriminate. apply optional_done in V, D. split.
    + intros i E. rewrite E in D. destruct D as (b & Db & _). exists b. apply cnv_iri_ref_spec, Db.
    + intros vs0 v E Hv. rewrite E in V. destruct V as (vs' & C & _). apply (C49_compile_partial resolve vs0 vs' (P vs0 E)) in C.
      clear -C Hv. induction C as [|a b l m R C IH]; [destruct Hv|]. destruct Hv as [<-|Hv]; [eauto|apply IH, Hv].
  - intros [D V].
    assert (EV : exists vs, optional (create_value_set resolve) (nc_values nc) = Done vs).
    { destruct (nc_values nc) as [vs|] eqn:E; [|eexists; reflexivity].
      assert (F : exists vs', Forall2 (resolved resolve) vs vs').
      { assert (H : forall v, In v vs -> exists v', resolved resolve v v') by (intros v Hv; apply (V vs v eq_refl Hv)). clear -H.
        induction vs as [|v vs IH]; [exists []; constructor|]. destruct (H v (or_introl eq_refl)) as [v' R]. destruct IH as [vs' R2]; [intros w Hw; apply H; right; exact Hw|].
        exists (v' :: vs'). constructor; assumption. }
      destruct F as [vs' F]. apply (C49_compile_partial resolve vs vs' (P vs E)) in F. cbn [optional]. rewrite F. eexists. reflexivity. }
    assert (ED : exists d, optional (cnv_iri_ref resolve) (nc_datatype nc) = Done d).
    { destruct (nc_datatype nc) as [i|]; [|eexists; reflexivity]. destruct (D i eq_refl) as [s S]. apply cnv_iri_ref_spec in S. cbn [optional]. rewrite S. eexists. reflexivity. }
    destruct EV as [vs ->], ED as [d ->]. eexists. reflexivity.
Qed.
Print Assumptions C52_compiles_partial.

(** C52, with C41 and C44: an integer type and two bounds, on a literal of the data *)
Theorem C52_bounded_integer_partial L resolve dt rx nc c s l k z i lo hi : nc = mkNC (Some KLiteral) (Some (Iri i)) (Some [FMinInclusive lo; FMaxInclusive hi]) None ->
  cnv_node_constraint resolve nc = Done c -> dt i = DInt k -> of_term L (OTyped s (DInt k)) = Some l -> xsd_int k s z -> (Z.abs z < 2 ^ 96)%Z ->
  (signless k -> ~ starts_minus s) -> represented (f64_dec L) (f32_dec L) lo -> represented (f64_dec L) (f32_dec L) hi ->
  (matches L dt rx c (OLit l) = true <-> xle (NumSpec.value lo) (XFin (inject_Z z)) /\ xle (XFin (inject_Z z)) (NumSpec.value hi)).
Proof.
  intros -> C D T X A M RL RH. rewrite (fun P => C52_all_parts_partial L resolve dt rx _ c (OLit l) P C); [|intros vs E; discriminate].
  destruct (C44_integer_partial L s l k z lo T X A M RL) as (L1 & _). destruct (C44_integer_partial L s l k z hi T X A M RH) as (_ & _ & _ & H1).
  unfold satisfies. cbn [nc_kind nc_datatype nc_facets nc_values]. split.
  - intros (_ & _ & F & _). split; [apply L1|apply H1].
    + apply (F _ (FMinInclusive lo) eq_refl). left. reflexivity.
    + apply (F _ (FMaxInclusive hi) eq_refl). right. left. reflexivity.
  - intros [HL HH]. split; [intros k0 E; injection E as <-; exists l; reflexivity|]. split; [|split].
    + intros i0 s0 E N. injection E as <-. cbn in N. subst s0. rewrite D. apply (C41_integer_complete_partial L s l k z T X); [|exact M].
      destruct k; cbn [fits]; lia.
    + intros fs f E Hf. injection E as <-. destruct Hf as [<-|[<-|[]]]; [apply L1, HL|apply H1, HH].
    + intros vs E. discriminate.
Qed.
Print Assumptions C52_bounded_integer_partial.

Definition ex_iri (i : str) : dtype := if str_eqb i (txt "byte") then DInt KByte else DOther i.
Definition ex_nc : node_constraint := mkNC (Some KLiteral) (Some (Prefixed (txt "by") (txt "te"))) (Some [FLength 1; FMinInclusive (NInt KInteger 3)]) None.
Example C52_met : plain_values ex_nc /\ well_named (fun p l => Some (p ++ l)%list) ex_nc /\
  exists c, cnv_node_constraint (fun p l => Some (p ++ l)%list) ex_nc = Done c /\
    matches lib0 ex_iri (fun _ _ => None) c (OLit (LNum (NInt KByte 5))) = true /\
    matches lib0 ex_iri (fun _ _ => None) c (OLit (LNum (NInt KByte 2))) = false /\
    matches lib0 ex_iri (fun _ _ => None) c (OLit (LNum (NInt KShort 5))) = false /\
    matches lib0 ex_iri (fun _ _ => None) c (OLit (LNum (NInt KByte 15))) = false.
Proof.
  split; [intros vs E; discriminate|]. split; [split; [intros i E; injection E as <-; eexists; reflexivity|intros vs v E; discriminate]|].
  eexists. split; [reflexivity|]. repeat split; reflexivity.
Qed.

(** C52: a pattern that is not a regular expression is not reported: it is a pattern no node matches. (So NOT of
    the constraint, which the engine evaluates by the negation of this result, is satisfied by every node.) *)
Theorem C52_invalid_pattern_refuted : exists nc, forall L resolve dt rx, (forall t, rx (txt "[") t = None) ->
  well_named resolve nc /\ exists c, cnv_node_constraint resolve nc = Done c /\ forall o, matches L dt rx c o = false.
Proof.
  exists (mkNC None None (Some [FPattern (txt "[") []]) None). intros L resolve dt rx R. split; [split; [intros i E; discriminate|intros vs v E; discriminate]|].
  eexists. split; [reflexivity|]. intro o. cbn. unfold pattern_ok. cbn [with_flags]. rewrite R. reflexivity.
Qed.
Print Assumptions C52_invalid_pattern_refuted.

(** C52: a pattern is looked for under its flags, for every regular expression engine that reads [(?f)p] as the
    pattern [p] under the flags [f]. *)
Theorem C52_pattern L dt rx (flagged : str -> str -> str -> option bool) p f o :
  (forall t, rx p t = flagged [] p t) ->
  (forall t, f <> [] -> rx (txt "(?" ++ f ++ txt ")" ++ p)%list t = flagged f p t) ->
  (matches L dt rx (CFacet (FPattern p f)) o = true <-> flagged f p (obj_text L o) = Some true).
Proof.
  intros H0 H1. cbn [matches facet_check]. unfold pattern_ok, with_flags. destruct f as [|x f].
  - rewrite H0. destruct (flagged [] p (obj_text L o)) as [[|]|]; split; congruence.
  - specialize (H1 (obj_text L o) ltac:(discriminate)). change (txt "(?") with [40; 63]%N in H1. change (txt ")") with [41]%N in H1.
    cbn [app] in *. rewrite H1. destruct (flagged (x :: f) p (obj_text L o)) as [[|]|]; split; congruence.
Qed.
Print Assumptions C52_pattern.
Example C52_pattern_met : matches lib0 ex_iri (fun p t => if str_eqb p (txt "(?i)a") then Some (str_eqb t (txt "A")) else Some false)
    (CFacet (FPattern (txt "a") (txt "i"))) (OIri (txt "A")) = true.
Proof. reflexivity. Qed.
