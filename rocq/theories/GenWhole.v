(* Lemmas about the generator: the data of easy schemas are as they should be. *)
From Coq Require Import List String Ascii Bool ZArith QArith Permutation Lia.
Import ListNotations.
From Verif Require Import SjModel CoModel CoSpec SqModel SqSpec SqLemmas GenModel GenSpec GenLemmas GenNames GenEntity GenGraph.
Open Scope string_scope.
Open Scope Z_scope.

Section Whole.
Context {L : lib} {G : glib}.
Variable ord : forall A : Type, list (string * A) -> list (string * A).
Hypothesis ord_perm : forall A (l : list (string * A)), Permutation (ord A l) l.
Variable checks : bool.
Variable rand : nat -> N.
Variable cfg : config.
Variable other_facet : facet -> string -> Prop.
Variable in_set : list SjModel.value -> term -> Prop.
Variable other_expr : sexpr -> term -> Prop.

Lemma in_upto k n : In k (upto n) <-> 0 <= k < n.
Proof.
  unfold upto. rewrite in_map_iff. split.
  - intros (i & <- & I). apply in_seq in I. lia.
  - intro H. exists (Z.to_nat k). split; [lia|]. apply in_seq. lia.
Qed.
Lemma nodup_upto n : NoDup (upto n).
Proof. unfold upto. apply FinFun.Injective_map_NoDup; [intros a b; lia|apply seq_NoDup]. Qed.

(* What an entity is made of. *)
Definition own (d : decl) (k : Z) (ts : list triple) : Prop :=
  exists l rest, ts = {| tr_s := entity_iri (label_of d) (k + 1); tr_p := rdf_type; tr_o := TmIri (label_of d) |} :: props_triples (entity_iri (label_of d) (k + 1)) l /\
    Permutation (i_props (info_of d)) (List.map fst l ++ rest) /\
    Forall (fun e => exists c, In c (match te_of d with Some te => flat te | None => [] end) /\ fst e = prop_of c /\
              enough (snd (fst c)) (snd c) (List.length (snd e)) /\ Forall (node_met other_facet in_set (c_node c)) (snd e)) l /\
    Forall (fun p => p_min p = None \/ exists m, p_min p = Some m /\ m <= 0) rest.

Lemma easy_conses d : easy_decl d -> Forall easy_cons (match te_of d with Some te => flat te | None => [] end).
Proof.
  intros (_ & closed & extra & te & a & n & Ex & _ & Es). unfold te_of. rewrite Ex. destruct te as [te|]; [|constructor]. apply easy_flat, Es, eq_refl.
Qed.

Lemma entity_own shapes d k : texts -> whole_entities cfg -> easy_decl d -> 0 <= k -> always (own d k) (single_entity checks rand cfg shapes (info_of d) k).
Proof.
  intros T W E K. pose proof (easy_conses d E) as F. rewrite Forall_forall in F.
  eapply always_weaken; [|apply (single_entity_always checks rand cfg shapes (fun p os => exists c, In c (match te_of d with Some te => flat te | None => [] end) /\ p = prop_of c /\
              enough (snd (fst c)) (snd c) (List.length os) /\ Forall (node_met other_facet in_set (c_node c)) os)); [exact W|]].
  - intros ts (l & rest & -> & P & Fl & Fr). exists l, rest. auto.
  - intros c p I Ig. assert (I' : exists co, In co (match te_of d with Some te => flat te | None => [] end) /\ p = prop_of co).
    { unfold info_of in I. cbn [i_props] in I. destruct (te_of d) as [te|]; [|destruct I]. apply in_map_iff in I. destruct I as (co & E' & I'). eauto. }
    destruct I' as (co & Ico & ->). destruct (F co Ico) as (N & En & R).
    eapply always_weaken; [|apply (easy_property checks rand cfg shapes other_facet in_set co c _ k T En R K Ig)].
    intros ts (os & -> & En' & F'). exists os. split; [reflexivity|]. exists co. auto.
Qed.

(* ------------------------------------------------------------------ *)
(* All entities                                                         *)

Definition all_entities (find : string -> option decl) (cs : list (string * Z)) (R : list ((string * Z) * list triple)) : Prop :=
  List.map fst R = flat_map (fun e => List.map (fun k => (fst e, k)) (upto (snd e))) cs /\
  Forall (fun r => exists d, find (fst (fst r)) = Some d /\ label_of d = fst (fst r) /\ own d (snd (fst r)) (snd r)) R.

Lemma entities_always shapes find cs : texts -> whole_entities cfg ->
  (forall e, In e cs -> exists d, easy_decl d /\ find (fst e) = Some d /\ label_of d = fst e /\ lookup (fst e) shapes = Some (info_of d)) ->
  always (fun ts => exists R, ts = List.concat (List.map snd R) /\ all_entities find cs R) (each cs (fun e => shape_entities checks rand cfg shapes (fst e) (snd e))).
Proof.
  intros T W Hc.
  eapply always_weaken; [|apply (always_each (fun e ts => exists R, ts = List.concat (List.map snd R) /\ all_entities find [e] R))].
  - intros ts (rs & -> & F). clear Hc. induction F as [|e r cs rs (R & -> & M & A) F (R' & E & M' & A')]; cbn.
    + exists []. repeat split; constructor.
    + exists (R ++ R')%list. rewrite E, map_app, concat_app. split; [reflexivity|]. split; [|apply Forall_app; auto].
      rewrite map_app, M, M'. cbn. rewrite app_nil_r. reflexivity.
  - intros e I. destruct (Hc e I) as (d & Ed & Fd & Ld & Lk). unfold shape_entities. rewrite Lk.
    eapply always_weaken; [|apply (always_each (fun k ts => own d k ts))].
    + intros ts (rs & -> & F). clear -F Fd Ld. exists (combine (List.map (fun k => (fst e, k)) (upto (snd e))) rs).
      unfold all_entities. cbn [flat_map]. rewrite app_nil_r. revert F. generalize (upto (snd e)). intros l F. induction F as [|k r l rs H F (E & M & A)]; cbn.
      * repeat split; constructor.
      * cbn in E, M. rewrite E, M. split; [reflexivity|]. split; [reflexivity|]. constructor; [|exact A]. cbn. exists d. auto.
    + intros k Ik. apply in_upto in Ik. apply entity_own; auto. lia.
Qed.

Lemma nothing_related shapes gen : Forall (fun e => i_deps (snd e) = []) shapes -> always (eq []) (relationships ord checks rand cfg shapes gen).
Proof.
  intro F. unfold relationships. eapply always_weaken; [|apply (always_each (fun _ ts => ts = []))].
  - intros ts (rs & -> & H). clear -H. induction H as [|e r l rs E H IH]; cbn; [reflexivity|]. rewrite E. exact IH.
  - intros e I. assert (D : i_deps (snd e) = []) by (rewrite Forall_forall in F; apply F; rewrite <- ord_perm; exact I). rewrite D.
    destruct (lookup (fst e) gen); apply always_ret; reflexivity.
Qed.

(* ------------------------------------------------------------------ *)
(* An entity has its shape                                              *)

Lemma names_apart l : NoDup (List.map c_name l) -> forall c c', In c l -> In c' l -> c_name c = c_name c' -> c = c'.
Proof.
  induction l as [|x l IH]; intros N c c' I I' E; [destruct I|]. cbn in N. inversion N as [|? ? N1 N2]; subst. destruct I as [->|I], I' as [->|I']; auto.
  - exfalso. apply N1. rewrite E. apply in_map, I'.
  - exfalso. apply N1. rewrite <- E. apply in_map, I.
Qed.
Lemma in_names_apart {A} (f : A -> string) (l : list A) : NoDup (List.map f l) -> forall a b, In a l -> In b l -> f a = f b -> a = b.
Proof.
  induction l as [|x l IH]; intros N a b I I' E; [destruct I|]. cbn in N. inversion N as [|? ? N1 N2]; subst. destruct I as [->|I], I' as [->|I']; auto.
  - exfalso. apply N1. rewrite E. apply in_map, I'.
  - exfalso. apply N1. rewrite <- E. apply in_map, I.
Qed.
Lemma in_props node l t : In t (props_triples node l) <-> exists e o, In e l /\ In o (snd e) /\ t = {| tr_s := node; tr_p := p_iri (fst e); tr_o := o |}.
Proof.
  unfold props_triples. rewrite in_flat_map. split.
  - intros (e & I & J). apply in_map_iff in J. destruct J as (o & <- & J). exists e, o. auto.
  - intros (e & o & I & J & ->). exists e. split; [exact I|]. apply in_map_iff. exists o. auto.
Qed.
Lemma min_converted c : easy_repeat (snd (fst c)) (snd c) -> p_min (prop_of c) = Some (match snd (fst c) with Some z => z | None => 1 end).
Proof.
  destruct c as [[[i n] mn] mx]. intros [R _]. cbn [fst snd] in *. unfold prop_of, to_prop. cbn [p_min u_min fst snd]. unfold convert_cardinality. cbn [fst].
  destruct mn as [m|]; [|reflexivity]. cbn in R. destruct (Z.leb_spec 0 m); [|lia]. cbn [option_map]. rewrite as_i32_small by lia. reflexivity.
Qed.

Lemma own_conforms d k ets ts : easy_decl d -> own d k ets -> (forall t, In t ets -> In t ts) ->
  (forall t, In t ts -> tr_s t = entity_iri (label_of d) (k + 1) -> In t ets) ->
  conforms other_facet in_set other_expr ts d (entity (label_of d) (k + 1)).
Proof.
  intros Ed (l & rest & -> & P & Fl & Fr) Sub Sup arcs [Na Ha]. change (entity (label_of d) (k + 1)) with (entity_iri (label_of d) (k + 1)) in *.
  set (node := entity_iri (label_of d) (k + 1)) in *. pose proof (easy_conses d Ed) as Fc. rewrite Forall_forall in Fc, Fl, Fr.
  assert (Ar : forall p o, In (p, o) arcs <-> p = the_type /\ o = TmIri (label_of d) \/ exists e, In e l /\ p = p_iri (fst e) /\ In o (snd e)).
  { intros p o. rewrite Ha. split.
    - intros (s & E & I). injection E as <-. pose proof (Sup _ I eq_refl) as I'. destruct I' as [E|I']; [injection E as <- <-; auto|]. apply in_props in I'.
      destruct I' as (e & o' & Ie & Io & E). injection E as -> ->. right. exists e. auto.
    - intro H. exists node. split; [reflexivity|]. apply Sub. destruct H as [[-> ->]|(e & Ie & -> & Io)]; [left; reflexivity|]. right. apply in_props. exists e, o. auto. }
  destruct Ed as (_ & closed & extra & te & a & n & Ex & Cl & Es). rewrite Ex. unfold info_of, te_of in *. rewrite Ex in *. cbn [i_props] in P.
  set (f := fun t : string * term => String.eqb (fst t) the_type).
  exists (filter (fun t => negb (f t)) arcs), (filter f arcs). split; [apply filter_perm|].
  assert (Rest : forall i o, In (i, o) (filter f arcs) -> i = the_type). { intros i o I. apply filter_In in I. apply String.eqb_eq, I. }
  destruct te as [te|].
  - destruct (Es te eq_refl) as [Ete Nte]. destruct (easy_flat te Ete) as (_ & _ & Names & _).
    assert (Nn : NoDup (List.map c_name (flat te))).
    { rewrite Names in Nte. rewrite <- map_map in Nte. apply NoDup_map_inv in Nte. exact Nte. }
    assert (Np : NoDup (List.map p_iri (List.map fst l ++ rest))).
    { rewrite <- P. rewrite map_map. exact Nn. }
    split.
    + apply easy_matches; [exact Ete|exact Nn|]. split.
      * intros [p o] I. apply filter_In in I. destruct I as [I Nf]. apply Ar in I. destruct I as [[-> _]|(e & Ie & -> & Io)]; [unfold f in Nf; cbn in Nf; discriminate|].
        destruct (Fl e Ie) as (c & Ic & Ec & _). exists c. split; [exact Ic|]. cbn [fst]. rewrite Ec. reflexivity.
      * intros c Ic. destruct (Fc c Ic) as (Nc & Enc & Rc). set (taken := filter (fun t => negb (f t)) arcs).
        assert (Tk : forall o, In (c_name c, o) taken <-> exists e, In e l /\ c_name c = p_iri (fst e) /\ In o (snd e)).
        { intro o. unfold taken. rewrite filter_In, Ar. unfold f. cbn [fst]. rewrite (proj2 (String.eqb_neq _ _) Nc). split; [intros [[[E _]|H] _]; [destruct (Nc E)|exact H]|auto]. }
        split.
        -- assert (In (prop_of c) (List.map fst l ++ rest)) as I by (rewrite <- P; apply in_map, Ic). apply in_app_or in I. destruct I as [I|I].
           ++ apply in_map_iff in I. destruct I as (e & Ee & Ie). destruct (Fl e Ie) as (c' & Ic' & Ec' & Enough & Vals).
              assert (c' = c). { apply (names_apart _ Nn); auto. change (c_name c') with (p_iri (prop_of c')). rewrite <- Ec', Ee. reflexivity. } subst c'.
              assert (Only : forall e', In e' l -> p_iri (fst e') = c_name c -> e' = e).
              { intros e' Ie' Ne'. rewrite map_app in Np. apply nodup_l in Np. rewrite map_map in Np. apply (in_names_apart (fun e => p_iri (fst e)) l Np); auto. rewrite Ne', Ee. reflexivity. }
              assert (Upper : (List.length (of_pred (c_name c) taken) <= List.length (snd e))%nat).
              { rewrite <- (map_length (fun o => (c_name c, o)) (snd e)). apply NoDup_incl_length; [apply NoDup_filter, NoDup_filter, Na|].
                intros [p o] I. apply filter_In in I. destruct I as [I Ep]. cbn in Ep. apply String.eqb_eq in Ep. subst p. apply Tk in I. destruct I as (e' & Ie' & Ne' & Io).
                rewrite (Only e' Ie' (eq_sym Ne')) in Io. apply in_map_iff. exists o. auto. }
              assert (Lower : (0 < List.length (snd e))%nat -> (0 < List.length (of_pred (c_name c) taken))%nat).
              { intro H. destruct (snd e) as [|o os] eqn:Eo; [cbn in H; lia|]. assert (I : In (c_name c, o) (of_pred (c_name c) taken)).
                { apply filter_In. split; [|apply String.eqb_refl]. apply Tk. exists e. rewrite Ee, Eo. repeat split; [exact Ie|]. left. reflexivity. }
                destruct (of_pred (c_name c) taken); [destruct I|cbn; lia]. }
              destruct Enough as [E1 E2], Rc as [R1 R2]. split.
              ** destruct (match snd (fst c) with Some z => z | None => 1 end); lia.
              ** destruct (snd c) as [mx|]; [destruct E2; [left; assumption|right; lia]|lia].
           ++ destruct (Fr _ I) as [E|(m & E & Hm)]; rewrite (min_converted c Rc) in E; [discriminate|]. injection E as E.
              assert (Zero : of_pred (c_name c) taken = []).
              { destruct (of_pred (c_name c) taken) as [|[p o] r] eqn:Eo; [reflexivity|]. assert (J : In (p, o) (of_pred (c_name c) taken)) by (rewrite Eo; left; reflexivity).
                apply filter_In in J. destruct J as [J Ep]. cbn in Ep. apply String.eqb_eq in Ep. subst p. apply Tk in J. destruct J as (e & Ie & Ne & _).
                exfalso. rewrite map_app in Np. clear -Np Ie Ne I. induction l as [|x l IH]; [destruct Ie|]. cbn in Np. inversion Np as [|? ? N1 N2]; subst.
                destruct Ie as [->|Ie]; [|exact (IH N2 Ie)]. apply N1, in_or_app. right. rewrite <- Ne. apply (in_map p_iri _ _ I). }
              rewrite Zero. cbn [List.length]. destruct Rc as [R1 R2]. split; [lia|]. destruct (snd c) as [mx|]; [destruct R2; [left; assumption|right; lia]|lia].
        -- intros [p o] It Ep. cbn in Ep. subst p. apply Tk in It. destruct It as (e & Ie & Ne & Io). destruct (Fl e Ie) as (c' & Ic' & Ec' & _ & Vals).
           assert (c' = c). { apply (names_apart _ Nn); auto. rewrite Ne, Ec'. reflexivity. } subst c'. rewrite Forall_forall in Vals. cbn. apply Vals, Io.
    + intros i o I. split; [|intro; contradiction]. intros te' p ve E Ip St. injection E as <-. exfalso. apply (in_map fst) in Ip. rewrite Names in Ip. apply in_map_iff in Ip.
      destruct Ip as (c & E & Ic). cbn in E. subst p. cbn in St. destruct (Fc c Ic) as (Nc & _). rewrite (Rest _ _ I) in St. congruence.
  - split; [|intros i o I; split; [intros te' p ve E; discriminate|intro; contradiction]].
    destruct (filter (fun t => negb (f t)) arcs) as [|[p o] r] eqn:Eo; [reflexivity|]. assert (J : In (p, o) (filter (fun t => negb (f t)) arcs)) by (rewrite Eo; left; reflexivity).
    apply filter_In in J. destruct J as [J Nf]. apply Ar in J. destruct J as [[-> _]|(e & Ie & _)]; [unfold f in Nf; cbn in Nf; discriminate|].
    destruct (Fl e Ie) as (c & [] & _).
Qed.

(* ------------------------------------------------------------------ *)
(* The data                                                             *)

Lemma own_subjects d k ets : own d k ets -> forall t, In t ets -> tr_s t = entity_iri (label_of d) (k + 1) /\ (tr_p t = the_type -> tr_o t = TmIri (label_of d) \/ ~ easy_decl d).
Proof.
  intros (l & rest & -> & _ & Fl & _) t [<-|I]; [cbn; auto|]. apply in_props in I. destruct I as (e & o & Ie & Io & ->). cbn. split; [reflexivity|].
  intro E. right. intro Ed. rewrite Forall_forall in Fl. destruct (Fl e Ie) as (c & Ic & Ec & _). pose proof (easy_conses d Ed) as Fc. rewrite Forall_forall in Fc.
  destruct (Fc c Ic) as (Nc & _). rewrite Ec in E. exact (Nc E).
Qed.

Lemma nodup_pairs (cs : list (string * Z)) : NoDup (List.map fst cs) -> NoDup (flat_map (fun e => List.map (fun k => (fst e, k)) (upto (snd e))) cs).
Proof.
  induction cs as [|[id n] cs IH]; cbn; [constructor|]. intro N. inversion N as [|? ? N1 N2]; subst.
  assert (X : forall l : list Z, NoDup l -> forall m : list (string * Z), NoDup m -> (forall k, ~ In (id, k) m) -> NoDup (List.map (fun k => (id, k)) l ++ m)).
  { induction l as [|k l IHl]; intros Nl m Nm Hm; [exact Nm|]. inversion Nl as [|? ? M1 M2]; subst. cbn. constructor; [|apply IHl; assumption].
    intro I. apply in_app_or in I. destruct I as [I|I]; [|exact (Hm k I)]. apply in_map_iff in I. destruct I as (k' & E & I). injection E as ->. exact (M1 I). }
  apply X; [apply nodup_upto|apply IH, N2|]. intros k I. apply in_flat_map in I. destruct I as ([id' n'] & I & J). apply in_map_iff in J. destruct J as (k' & E & _). injection E as -> _.
  apply N1. apply (in_map fst) in I. exact I.
Qed.

Theorem good ds : easy_schema ds -> whole_entities cfg -> texts -> divides cfg ->
  exists ts, generate_shex ord checks rand cfg ds = Ok ts /\ good_data other_facet in_set other_expr cfg ds ts.
Proof.
  intros E W T D. pose proof (easy_shapes ord ord_perm ds E) as PS. pose proof (easy_labels ds E) as NL. destruct E as [F _]. rewrite Forall_forall in F.
  unfold generate_shex. set (shapes := set_shapes _) in *. clearbody shapes.
  assert (Keys : Permutation (List.map fst shapes) (List.map label_of ds)). { rewrite PS, map_map. reflexivity. }
  assert (NK : NoDup (List.map fst shapes)) by (rewrite Keys; exact NL).
  assert (Find : forall id, In id (List.map label_of ds) -> exists d, In d ds /\ label_of d = id /\ find (fun d => String.eqb (label_of d) id) ds = Some d).
  { intros id I. destruct (find (fun d => String.eqb (label_of d) id) ds) as [d|] eqn:Ef.
    - apply find_some in Ef. destruct Ef as [I' E']. apply String.eqb_eq in E'. exists d. auto.
    - apply in_map_iff in I. destruct I as (d & E' & I'). pose proof (find_none _ _ Ef d I') as H. cbn in H. rewrite E', String.eqb_refl in H. discriminate. }
  assert (Lk : forall d, In d ds -> lookup (label_of d) shapes = Some (info_of d)).
  { intros d I. apply lookup_some; [exact NK|]. rewrite PS. apply in_map_iff. exists d. auto. }
  destruct (counts_fine ord ord_perm cfg shapes NK D) as (cs & Ec & Pc & Nonneg & Al).
  unfold generate_data. set (fnd := fun id => find (fun d => String.eqb (label_of d) id) ds).
  assert (Run : always (fun ts => exists R, ts = List.concat (List.map snd R) /\ all_entities fnd (ord _ cs) R)
                  (generate_data ord checks rand cfg shapes)).
  { unfold generate_data. eapply always_bind with (P := eq cs); [intro n; unfold lift; rewrite Ec; eexists _, _; split; reflexivity|]. intros ? <-.
    eapply always_bind; [apply (entities_always shapes fnd (ord _ cs)); [exact T|exact W|]|].
    - intros e I. assert (I' : In (fst e) (List.map label_of ds)). { rewrite <- Keys, <- Pc. apply in_map. rewrite <- ord_perm. exact I. }
      destruct (Find _ I') as (d & Id & El & Ef). exists d. split; [apply F, Id|]. split; [exact Ef|]. split; [exact El|]. rewrite <- El. apply Lk, Id.
    - intros ts (R & -> & A). eapply always_bind; [apply nothing_related|].
      + apply Forall_forall. intros e I. rewrite PS in I. apply in_map_iff in I. destruct I as (d & <- & _). reflexivity.
      + intros ? <-. apply always_ret. exists R. rewrite app_nil_r. auto. }
  destruct (Run 0%nat) as (ts & n' & Er & R & -> & [M A]). fold (generate_data ord checks rand cfg shapes). rewrite Er. cbn [rmap fst]. eexists. split; [reflexivity|].
  set (ts := List.concat (List.map snd R)). exists (fun id => match lookup id cs with Some n => n | None => 0 end).
  split.
  { unfold allotted in *. change (fun d => show_label (d_id d)) with label_of. destruct (c_distribution cfg) as [|ws|cs'].
    - destruct Al as [A1 A2]. split.
      + intro H. rewrite <- (total_perm _ _ (Permutation_map _ Keys)). apply A1. intro Em. rewrite Em in Keys. apply Permutation_nil in Keys. exact (H Keys).
      + intros i j Ii Ij. apply A2; rewrite Keys; assumption.
    - exact Logic.I.
    - intros i Ii. apply Al. rewrite Keys. exact Ii. }
  assert (NR : NoDup (List.map fst R)). { rewrite M. apply nodup_pairs. rewrite (Permutation_map fst (ord_perm _ cs)), Pc. exact NK. }
  assert (InR : forall id k, In (id, k) (List.map fst R) <-> exists n, In (id, n) cs /\ 0 <= k < n).
  { intros id k. rewrite M, in_flat_map. split.
    - intros ([id' n] & I & J). apply in_map_iff in J. destruct J as (k' & Ek & J). cbn in Ek. injection Ek as -> ->. exists n. split; [rewrite <- ord_perm; exact I|]. apply in_upto, J.
    - intros (n & I & H). exists (id, n). split; [rewrite ord_perm; exact I|]. cbn. apply in_map_iff. exists k. split; [reflexivity|]. apply in_upto, H. }
  assert (Ncs : NoDup (List.map fst cs)) by (rewrite Pc; exact NK).
  rewrite Forall_forall in A, Nonneg.
  assert (Mem : forall t, In t ts <-> exists r, In r R /\ In t (snd r)).
  { intro t. unfold ts. rewrite in_concat. split.
    - intros (l & I & J). apply in_map_iff in I. destruct I as (r & <- & I). eauto.
    - intros (r & I & J). exists (snd r). split; [apply in_map, I|exact J]. }
  assert (Pos : forall r, In r R -> 0 <= snd (fst r)).
  { intros [[id k] l] I. apply (in_map fst) in I. cbn in *. apply InR in I. destruct I as (n & _ & H). lia. }
  assert (Unique : forall r r', In r R -> In r' R -> fst r = fst r' -> r = r').
  { clear -NR. revert NR. induction R as [|x R IH]; intros N r r' I I' Eq; [destruct I|]. cbn in N. inversion N as [|? ? N1 N2]; subst. destruct I as [->|I], I' as [->|I']; auto.
    - exfalso. apply N1. rewrite Eq. apply in_map, I'.
    - exfalso. apply N1. rewrite <- Eq. apply in_map, I. }
  intros d id Id Ei. assert (Ld : label_of d = id) by (unfold label_of; rewrite Ei; reflexivity).
  assert (Ik : exists n, In (id, n) cs).
  { assert (I : In id (List.map fst cs)) by (rewrite Pc, Keys, <- Ld; apply in_map, Id). apply in_map_iff in I. destruct I as ([id' n] & Eq & I). cbn in Eq. subst id'. eauto. }
  destruct Ik as (n & In_n). rewrite (lookup_some id n cs Ncs In_n). pose proof (Nonneg _ In_n) as Hn. cbn in Hn. split; [exact Hn|].
  assert (Entry : forall k, 0 <= k < n -> exists ets, In ((id, k), ets) R /\ own d k ets).
  { intros k Hk. assert (I : In (id, k) (List.map fst R)) by (apply InR; eauto). apply in_map_iff in I. destruct I as ([ik ets] & Eq & I). cbn in Eq. subst ik. exists ets. split; [exact I|].
    destruct (A _ I) as (d' & Fd & Ld' & O). cbn in Fd, Ld', O. unfold fnd in Fd. apply find_some in Fd. destruct Fd as [Id' _].
    assert (d' = d) by (apply (in_names_apart label_of ds NL); auto; congruence). subst d'. exact O. }
  split.
  - intro s. split.
    + intros (s' & Es & I). injection Es as <-. apply Mem in I. destruct I as ([[id' k] ets] & Ir & It). destruct (A _ Ir) as (d' & Fd & Ld' & O). cbn in *.
      destruct (own_subjects _ _ _ O _ It) as [S1 S2]. cbn in S1, S2. unfold fnd in Fd. apply find_some in Fd. destruct Fd as [Id' _].
      destruct (S2 eq_refl) as [Eq|Ne]; [|destruct (Ne (F _ Id'))]. injection Eq as Eq. rewrite <- Eq in Ld'. subst id'.
      assert (J : In (id, k) (List.map fst R)) by (apply (in_map fst) in Ir; exact Ir). apply InR in J. destruct J as (n2 & J & Hk).
      pose proof (lookup_some id n2 cs Ncs J) as L2. rewrite (lookup_some id n cs Ncs In_n) in L2. injection L2 as <-. exists (k + 1). split; [lia|]. rewrite S1, <- Eq. reflexivity.
    + intros (k & Hk & ->). destruct (Entry (k - 1) ltac:(lia)) as (ets & Ir & (l & rest & -> & _)). exists (entity id k). split; [reflexivity|]. apply Mem. eexists. split; [exact Ir|]. left.
      cbn. rewrite Ld. replace (k - 1 + 1) with k by lia. reflexivity.
  - intros k Hk. destruct (Entry (k - 1) ltac:(lia)) as (ets & Ir & O). rewrite <- Ld. replace k with (k - 1 + 1) by lia. apply (own_conforms d (k - 1) ets ts (F d Id) O).
    + intros t It. apply Mem. eauto.
    + intros t It St. apply Mem in It. destruct It as ([[id' k'] ets'] & Ir' & It). destruct (A _ Ir') as (d' & Fd & Ld' & O'). cbn in *.
      destruct (own_subjects _ _ _ O' _ It) as [S1 _]. rewrite St in S1. pose proof (Pos _ Ir') as P'. cbn in P'. apply entity_inj in S1; [|lia|lia]. destruct S1 as [S1 S2].
      assert (Eq : ((id', k'), ets') = ((id, k - 1), ets)). { apply Unique; auto. cbn. f_equal; [congruence|lia]. } injection Eq as _ _ ->. exact It.
Qed.
End Whole.
