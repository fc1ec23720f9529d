(* Lemmas about the generator: what is made of shapes without references, whatever their properties are. *)
From Coq Require Import List String Ascii Bool ZArith QArith Permutation Lia.
Import ListNotations.
From Verif Require Import SjModel CoModel CoSpec SqModel SqSpec SqLemmas GenModel GenSpec GenLemmas GenNames GenEntity GenGraph GenWhole.
Open Scope string_scope.
Open Scope Z_scope.

Section Any.
Context {L : lib} {G : glib}.
Variable ord : forall A : Type, list (string * A) -> list (string * A).
Hypothesis ord_perm : forall A (l : list (string * A)), Permutation (ord A l) l.
Variable checks : bool.
Variable rand : nat -> N.
Variable cfg : config.
Variable shapes : list (string * info).
Variable P : prop -> list term -> Prop.

Definition made (i : info) (k : Z) (ts : list triple) : Prop :=
  exists l rest, ts = {| tr_s := entity_iri (i_id i) (k + 1); tr_p := rdf_type; tr_o := TmIri (i_id i) |} :: props_triples (entity_iri (i_id i) (k + 1)) l /\
    Permutation (i_props i) (List.map fst l ++ rest) /\ Forall (fun e => P (fst e) (snd e)) l /\
    Forall (fun p => p_min p = None \/ exists m, p_min p = Some m /\ m <= 0) rest.

Hypothesis keys : NoDup (List.map fst shapes).
Hypothesis ids : forall id i, In (id, i) shapes -> i_id i = id /\ i_deps i = [].
Hypothesis properties : forall id i p cf node idx, In (id, i) shapes -> In p (i_props i) -> c_ignore cf = false -> 0 <= idx ->
  always (fun ts => exists os, ts = List.map (fun o => {| tr_s := node; tr_p := p_iri p; tr_o := o |}) os /\ P p os)
    (property_triples checks rand cfg shapes cf node idx p).

Definition every (cs : list (string * Z)) (R : list ((string * Z) * list triple)) : Prop :=
  List.map fst R = flat_map (fun e => List.map (fun k => (fst e, k)) (upto (snd e))) cs /\
  Forall (fun r => exists i, In (fst (fst r), i) shapes /\ made i (snd (fst r)) (snd r)) R.

Lemma every_made cs : whole_entities cfg -> (forall e, In e cs -> In (fst e) (List.map fst shapes)) ->
  always (fun ts => exists R, ts = List.concat (List.map snd R) /\ every cs R) (each cs (fun e => shape_entities checks rand cfg shapes (fst e) (snd e))).
Proof.
  intros W Hc.
  eapply always_weaken; [|apply (always_each (fun e ts => exists R, ts = List.concat (List.map snd R) /\ every [e] R))].
  - intros ts (rs & -> & F). clear Hc. induction F as [|e r cs rs (R & -> & M & A) F (R' & E & M' & A')]; cbn.
    + exists []. repeat split; constructor.
    + exists (R ++ R')%list. rewrite E, map_app, concat_app. split; [reflexivity|]. split; [|apply Forall_app; auto].
      rewrite map_app, M, M'. cbn. rewrite app_nil_r. reflexivity.
  - intros e I. apply Hc in I. apply in_map_iff in I. destruct I as ([id i] & E & I). cbn in E. subst id. destruct (ids _ _ I) as [Ei _].
    unfold shape_entities. rewrite (lookup_some _ _ _ keys I).
    eapply always_weaken; [|apply (always_each (fun k ts => made i k ts))].
    + intros ts (rs & -> & F). clear -F I. exists (combine (List.map (fun k => (fst e, k)) (upto (snd e))) rs).
      unfold every. cbn [flat_map]. rewrite app_nil_r. revert F. generalize (upto (snd e)). intros l F. induction F as [|k r l rs H F (E & M & A)]; cbn.
      * repeat split; constructor.
      * cbn in E, M. rewrite E, M. split; [reflexivity|]. split; [reflexivity|]. constructor; [|exact A]. cbn. exists i. auto.
    + intros k Ik. apply in_upto in Ik. apply single_entity_always; [exact W|]. intros c p Ip Ig. apply (properties (fst e) i); auto. lia.
Qed.

Theorem all_made : whole_entities cfg -> divides cfg ->
  exists ts n R f, generate_data ord checks rand cfg shapes 0%nat = Ok (ts, n) /\ ts = List.concat (List.map snd R) /\ NoDup (List.map fst R) /\
    allotted cfg (List.map fst shapes) f /\ (forall id, In id (List.map fst shapes) -> 0 <= f id) /\
    (forall id k, In (id, k) (List.map fst R) <-> In id (List.map fst shapes) /\ 0 <= k < f id) /\
    forall r, In r R -> exists i, In (fst (fst r), i) shapes /\ made i (snd (fst r)) (snd r).
Proof.
  intros W D. destruct (counts_fine ord ord_perm cfg shapes keys D) as (cs & Ec & Pc & Nonneg & Al).
  assert (Run : always (fun ts => exists R, ts = List.concat (List.map snd R) /\ every (ord _ cs) R) (generate_data ord checks rand cfg shapes)).
  { unfold generate_data. eapply always_bind with (P := eq cs); [intro n; unfold lift; rewrite Ec; eexists _, _; split; reflexivity|]. intros ? <-.
    eapply always_bind; [apply (every_made (ord _ cs)); [exact W|]|].
    - intros e I. rewrite <- Pc. apply in_map. rewrite <- ord_perm. exact I.
    - intros ts (R & -> & A). eapply always_bind; [apply (nothing_related ord ord_perm)|].
      + apply Forall_forall. intros [id i] I. apply (ids _ _ I).
      + intros ? <-. apply always_ret. exists R. rewrite app_nil_r. auto. }
  destruct (Run 0%nat) as (ts & n & Er & R & E & [M A]). exists ts, n, R, (fun id => match lookup id cs with Some n => n | None => 0 end).
  assert (Ncs : NoDup (List.map fst cs)) by (rewrite Pc; exact keys). rewrite Forall_forall in A, Nonneg.
  assert (Has : forall id, In id (List.map fst shapes) -> exists n, In (id, n) cs).
  { intros id I. rewrite <- Pc in I. apply in_map_iff in I. destruct I as ([id' m] & Eq & I). cbn in Eq. subst id'. eauto. }
  split; [exact Er|]. split; [exact E|]. split. { rewrite M. apply nodup_pairs. rewrite (Permutation_map fst (ord_perm _ cs)). exact Ncs. }
  split.
  { unfold allotted in *. destruct (c_distribution cfg); [|exact Logic.I|exact Al]. destruct Al as [A1 A2]. split; [|exact A2]. intro H. apply A1. intro Em. apply H. rewrite Em. reflexivity. }
  split. { intros id I. destruct (Has id I) as (m & I'). rewrite (lookup_some id m cs Ncs I'). exact (Nonneg _ I'). }
  split; [|exact A]. intros id k. rewrite M, in_flat_map. split.
  - intros ([id' m] & I & J). apply in_map_iff in J. destruct J as (k' & Ek & J). cbn in Ek. injection Ek as -> ->. apply in_upto in J. assert (I' : In (id, m) cs) by (rewrite <- ord_perm; exact I).
    rewrite (lookup_some id m cs Ncs I'). split; [rewrite <- Pc; apply (in_map fst) in I'; exact I'|exact J].
  - intros [I H]. destruct (Has id I) as (m & I'). rewrite (lookup_some id m cs Ncs I') in H. exists (id, m). split; [rewrite ord_perm; exact I'|]. cbn. apply in_map_iff. exists k. split; [reflexivity|]. apply in_upto, H.
Qed.

(* The triples with an entity for their subject are those made with it. *)
Lemma own_triples (R : list ((string * Z) * list triple)) : NoDup (List.map fst R) -> (forall r, In r R -> 0 <= snd (fst r)) ->
  (forall r, In r R -> exists i, In (fst (fst r), i) shapes /\ made i (snd (fst r)) (snd r)) ->
  (forall r t, In r R -> In t (snd r) -> tr_s t = entity_iri (fst (fst r)) (snd (fst r) + 1)) /\
  forall r t, In r R -> In t (List.concat (List.map snd R)) /\ tr_s t = entity_iri (fst (fst r)) (snd (fst r) + 1) <-> In t (snd r).
Proof.
  intros N Pos H. assert (S : forall r t, In r R -> In t (snd r) -> tr_s t = entity_iri (fst (fst r)) (snd (fst r) + 1)).
  { intros r t I J. destruct (H r I) as (i & Ii & l & rest & E & _). rewrite E in J. rewrite <- (proj1 (ids _ _ Ii)). destruct J as [<-|J]; [reflexivity|]. apply in_props in J. destruct J as (e & o & _ & _ & ->). reflexivity. }
  split; [exact S|]. intros r t I. split.
  - intros [J E]. apply in_concat in J. destruct J as (ts & J & K). apply in_map_iff in J. destruct J as (r' & <- & I'). rewrite (S r' t I' K) in E.
    pose proof (Pos r I). pose proof (Pos r' I'). apply entity_inj in E; [|lia|lia]. destruct E as [E1 E2].
    assert (Eq : fst r' = fst r). { destruct r as [[a b] c], r' as [[a' b'] c']. cbn in *. f_equal; [exact E1|lia]. }
    assert (r' = r); [|subst; exact K]. clear -N I I' Eq. revert N. induction R as [|x l IH]; intro N; [destruct I|]. cbn in N. inversion N as [|? ? N1 N2]; subst. destruct I as [->|I], I' as [->|I']; auto.
    + exfalso. apply N1. rewrite <- Eq. apply in_map, I'.
    + exfalso. apply N1. rewrite Eq. apply in_map, I.
  - intro J. split; [|exact (S r t I J)]. apply in_concat. exists (snd r). split; [apply in_map, I|exact J].
Qed.
End Any.
