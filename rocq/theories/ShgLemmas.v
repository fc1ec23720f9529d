(* Lemmas about generating data from SHACL shapes. *)
From Coq Require Import List String Ascii Bool ZArith QArith Permutation Lia.
Import ListNotations.
From Verif Require Import SjModel CoModel CoSpec SqModel SqSpec SqLemmas GenModel GenSpec GenLemmas GenNames GenEntity GenGraph GenWhole GenAny CmModel CmSpec CmLemmas ShgModel ShgSpec.
Open Scope string_scope.
Open Scope Z_scope.

Lemma in_somes {A} (l : list (option A)) a : In a (somes l) <-> In (Some a) l.
Proof. induction l as [|[b|] l IH]; cbn; [tauto| |]; rewrite IH; intuition congruence. Qed.
Lemma name_eqb_eq a b : name_eqb a b = true <-> a = b.
Proof. destruct a, b; cbn; rewrite ?String.eqb_eq; split; intro H; try discriminate; try (injection H as ->); try (subst; reflexivity); auto. Qed.
Lemma get_shape_iff n s sch : NoDup (List.map fst sch) -> get_shape n sch = Some s <-> In (n, s) sch.
Proof.
  induction sch as [|[n' s'] sch IH]; cbn; intro N; [split; [discriminate|tauto]|]. inversion N as [|? ? N1 N2]; subst. destruct (name_eqb n n') eqn:E.
  - apply name_eqb_eq in E. subst n'. split; [intro H; injection H as ->; auto|]. intros [H|H]; [injection H as ->; reflexivity|]. exfalso. apply N1. apply (in_map fst) in H. exact H.
  - rewrite (IH N2). split; [auto|]. intros [H|H]; [|exact H]. injection H as -> ->. rewrite (proj2 (name_eqb_eq n n) eq_refl) in E. discriminate.
Qed.
Lemma properties_found sch s pss : NoDup (List.map fst sch) -> properties_of sch (ns_props s) pss -> property_shapes sch s = pss.
Proof.
  intros N P. unfold property_shapes. induction P as [|n ns ps pss I P IH]; cbn; [reflexivity|]. rewrite (proj2 (get_shape_iff _ _ _ N) I). cbn. rewrite IH. reflexivity.
Qed.
Lemma properties_has sch s pss : NoDup (List.map fst sch) -> properties_of sch (ns_props s) pss -> forall ps, has_property sch s ps <-> In ps pss.
Proof.
  intros N P ps. unfold has_property, declared. induction P as [|n ns p pss I P IH]; cbn.
  - split; [intros (n & [] & _)|intros []].
  - split.
    + intros (m & [<-|J] & K); [|right; apply IH; eauto]. left. pose proof (proj2 (get_shape_iff _ _ _ N) I) as E1. pose proof (proj2 (get_shape_iff _ _ _ N) K) as E2. congruence.
    + intros [->|J]; [exists n; auto|]. apply IH in J. destruct J as (m & J & K). eauto.
Qed.
Lemma in_node_shapes sch s : In s (node_shapes sch) <-> exists n, In (n, SNodeShape s) sch.
Proof.
  unfold node_shapes. rewrite in_somes, in_map_iff. split.
  - intros ([n [s'|s']] & E & I); [injection E as ->; eauto|discriminate].
  - intros (n & I). eexists. split; [|exact I]. reflexivity.
Qed.

(* ------------------------------------------------------------------ *)
(* Cardinalities                                                        *)

Definition card_step (m : option Z * option Z) (c : component) : option Z * option Z :=
  match c with
  | KMinCount z => if (0 <=? z)%Z then (Some (as_u32 z), snd m) else m
  | KMaxCount z => if (0 <=? z)%Z then (fst m, Some (as_u32 z)) else m
  | _ => m
  end.
Lemma extract_fold cs : extract_cardinality cs = fold_left card_step cs (None, None).
Proof. reflexivity. Qed.
Lemma fold_min_other cs : forall m, (forall y, ~ In (KMinCount y) cs) -> fst (fold_left card_step cs m) = fst m.
Proof.
  induction cs as [|c cs IH]; intros m H; cbn; [reflexivity|]. rewrite IH by (intros y I; apply (H y); right; exact I). destruct c; cbn; try reflexivity.
  - destruct (H z). left. reflexivity.
  - destruct (0 <=? z); reflexivity.
Qed.
Lemma fold_max_other cs : forall m, (forall y, ~ In (KMaxCount y) cs) -> snd (fold_left card_step cs m) = snd m.
Proof.
  induction cs as [|c cs IH]; intros m H; cbn; [reflexivity|]. rewrite IH by (intros y I; apply (H y); right; exact I). destruct c; cbn; try reflexivity.
  - destruct (0 <=? z); reflexivity.
  - destruct (H z). left. reflexivity.
Qed.
Lemma fold_min z cs : 0 <= z < 2 ^ 32 -> forall m, (forall y, In (KMinCount y) cs -> y = z) -> (fst m = Some z \/ In (KMinCount z) cs) -> fst (fold_left card_step cs m) = Some z.
Proof.
  intro R. induction cs as [|c cs IH]; intros m H O; cbn; [destruct O as [O|[]]; exact O|]. apply IH; [intros y I; apply H; right; exact I|].
  destruct c; cbn in *; try (destruct O as [O|[O|O]]; [left; exact O|discriminate|right; exact O]).
  - left. rewrite (H z0) by auto. destruct (Z.leb_spec 0 z); [|lia]. cbn. unfold as_u32. rewrite Z.mod_small by lia. reflexivity.
  - destruct O as [O|[O|O]]; [left; destruct (0 <=? z0); exact O|discriminate|right; exact O].
Qed.
Lemma fold_max z cs : 0 <= z < 2 ^ 32 -> forall m, (forall y, In (KMaxCount y) cs -> y = z) -> (snd m = Some z \/ In (KMaxCount z) cs) -> snd (fold_left card_step cs m) = Some z.
Proof.
  intro R. induction cs as [|c cs IH]; intros m H O; cbn; [destruct O as [O|[]]; exact O|]. apply IH; [intros y I; apply H; right; exact I|].
  destruct c; cbn in *; try (destruct O as [O|[O|O]]; [left; exact O|discriminate|right; exact O]).
  - destruct O as [O|[O|O]]; [left; destruct (0 <=? z0); exact O|discriminate|right; exact O].
  - left. rewrite (H z0) by auto. destruct (Z.leb_spec 0 z); [|lia]. cbn. unfold as_u32. rewrite Z.mod_small by lia. reflexivity.
Qed.
Lemma extracted cs mn mx : the_count KMinCount cs mn -> the_count KMaxCount cs mx ->
  (forall z, mn = Some z -> 0 <= z < 2 ^ 31) -> (forall z, mx = Some z -> 0 <= z < 2 ^ 31) -> extract_cardinality cs = (mn, mx).
Proof.
  intros A B R1 R2. rewrite extract_fold. rewrite (surjective_pairing (fold_left card_step cs (None, None))). f_equal.
  - destruct mn as [z|]; [|apply (fold_min_other cs (None, None)); exact A]. destruct A as [A1 A2]. apply fold_min; auto. specialize (R1 z eq_refl). lia.
  - destruct mx as [z|]; [|apply (fold_max_other cs (None, None)); exact B]. destruct B as [B1 B2]. apply fold_max; auto. specialize (R2 z eq_refl). lia.
Qed.

Section Values.
Context {L : lib} {G : glib}.
Variable checks : bool.
Variable rand : nat -> N.

(* ------------------------------------------------------------------ *)
(* Parameters                                                           *)

Definition par_step (m : M params) (c : ucons) : M params := bind m (fun ps => add_param checks ps c).
Definition silent (c : component) : Prop := (exists d, c = KDatatype d) \/ (exists k, c = KNodeKind k) \/ exists z, c = KMinCount z \/ c = KMaxCount z.
Lemma silent_params cs : (forall c, In c cs -> silent c) -> forall (m : M params) n ps, m n = Ok (ps, n) ->
  fold_left par_step (somes (List.map convert_component cs)) m n = Ok (ps, n).
Proof.
  induction cs as [|c cs IH]; intros H m n ps E; [exact E|]. assert (H' : forall c, In c cs -> silent c) by (intros; apply H; right; assumption).
  destruct (H c (or_introl eq_refl)) as [(d & ->)|[(k & ->)|(z & [-> | ->])]]; cbn; apply IH; auto; unfold par_step, bind; rewrite E; reflexivity.
Qed.
Lemma lower_adds c b : lower_bound c b -> small b -> exists u, convert_component c = Some u /\ lower_cons checks u b.
Proof.
  unfold small. intros [(l & -> & E)|(l & z & -> & E & ->)] S; eexists; (split; [reflexivity|]); intros ps k; cbn; unfold bound_param, reads in *; cbn; rewrite E;
    rewrite ?Z.add_0_r; rewrite i64_small by lia; reflexivity.
Qed.
Lemma upper_adds c b : upper_bound c b -> small b -> exists u, convert_component c = Some u /\ upper_cons checks u b.
Proof.
  unfold small. intros [(l & -> & E)|(l & z & -> & E & ->)] S; eexists; (split; [reflexivity|]); intros ps k; cbn; unfold bound_param, reads in *; cbn; rewrite E;
    rewrite ?Z.add_0_r; rewrite i64_small by lia; reflexivity.
Qed.
Lemma lookup_put {A} k k' (a : A) m : lookup k (put k' a m) = if String.eqb k k' then Some a else lookup k m.
Proof.
  induction m as [|[k2 a2] m IH]; cbn; [reflexivity|]. destruct (String.eqb_spec k' k2) as [->|N1]; cbn.
  - destruct (String.eqb k k2); reflexivity.
  - rewrite IH. destruct (String.eqb_spec k k2) as [->|N2]; [|reflexivity]. destruct (String.eqb_spec k2 k') as [->|]; [congruence|reflexivity].
Qed.
Lemma bounds_params lo hi : small lo -> small hi -> forall cs, (forall c, In c cs -> (silent c \/ bounds_below c \/ bounds_above c) /\ (bounds_below c -> lower_bound c lo) /\ (bounds_above c -> upper_bound c hi)) ->
  forall (m : M params) n ps, m n = Ok (ps, n) -> exists ps', fold_left par_step (somes (List.map convert_component cs)) m n = Ok (ps', n) /\
    (lookup "min" ps' = Some (PInt lo) \/ lookup "min" ps' = lookup "min" ps /\ forall c, In c cs -> ~ bounds_below c) /\
    (lookup "max" ps' = Some (PInt hi) \/ lookup "max" ps' = lookup "max" ps /\ forall c, In c cs -> ~ bounds_above c).
Proof.
  intros S1 S2. induction cs as [|c cs IH]; intros H m n ps E; [exists ps; cbn; split; [exact E|]; split; right; (split; [reflexivity|intros c []])|].
  assert (H' : forall c, In c cs -> (silent c \/ bounds_below c \/ bounds_above c) /\ (bounds_below c -> lower_bound c lo) /\ (bounds_above c -> upper_bound c hi)) by (intros; apply H; right; assumption).
  destruct (H c (or_introl eq_refl)) as ([Si|[Be|Ab]] & Lo & Up).
  - assert (Nb : ~ bounds_below c /\ ~ bounds_above c).
    { destruct Si as [(d & ->)|[(k & ->)|(z & [-> | ->])]]; split; intros (l & [X|X]); discriminate. }
    assert (X : exists m', fold_left par_step (somes (List.map convert_component (c :: cs))) m n = fold_left par_step (somes (List.map convert_component cs)) m' n /\ m' n = Ok (ps, n)).
    { destruct Si as [(d & ->)|[(k & ->)|(z & [-> | ->])]]; cbn; [eexists; split; [reflexivity|]; unfold par_step, bind; rewrite E; reflexivity| |exists m; auto|exists m; auto].
      eexists; split; [reflexivity|]; unfold par_step, bind; rewrite E; reflexivity. }
    destruct X as (m' & Ex & E'). rewrite Ex. destruct (IH H' m' n ps E') as (ps' & E2 & A & B). exists ps'. split; [exact E2|]. split.
    + destruct A as [A|[A A']]; [left; exact A|right]. split; [exact A|]. intros c' [<-|I]; [apply Nb|apply A', I].
    + destruct B as [B|[B B']]; [left; exact B|right]. split; [exact B|]. intros c' [<-|I]; [apply Nb|apply B', I].
  - destruct (lower_adds c lo (Lo Be) S1) as (u & Eu & C). cbn [List.map somes]. rewrite Eu. cbn [somes fold_left].
    destruct (IH H' (par_step m u) n (put "min" (PInt lo) ps)) as (ps' & E2 & A & B). { unfold par_step, bind. rewrite E. apply C. }
    exists ps'. split; [exact E2|]. rewrite !lookup_put in *. cbn in A, B. split; [left; destruct A as [A|[A _]]; exact A|].
    destruct B as [B|[B B']]; [left; exact B|right]. split; [exact B|]. intros c' [<-|I]; [|apply B', I]. intros (l & [X|X]); destruct Be as (l' & [Y|Y]); congruence.
  - destruct (upper_adds c hi (Up Ab) S2) as (u & Eu & C). cbn [List.map somes]. rewrite Eu. cbn [somes fold_left].
    destruct (IH H' (par_step m u) n (put "max" (PInt hi) ps)) as (ps' & E2 & A & B). { unfold par_step, bind. rewrite E. apply C. }
    exists ps'. split; [exact E2|]. rewrite !lookup_put in *. cbn in A, B. split; [|left; destruct B as [B|[B _]]; exact B].
    destruct A as [A|[A A']]; [left; exact A|right]. split; [exact A|]. intros c' [<-|I]; [|apply A', I]. intros (l & [X|X]); destruct Ab as (l' & [Y|Y]); congruence.
Qed.

(* ------------------------------------------------------------------ *)
(* Values                                                               *)

Definition single (c : component) (o : term) : Prop :=
  match c with
  | KDatatype d => exists s, o = TmLit s d
  | KNodeKind k => match o with TmIri _ => iri_kind k | TmLit _ _ => literal_kind k end
  | KMinIn l => compared Z.le l o
  | KMinEx l => compared Z.lt l o
  | KMaxIn l => compared Z.ge l o
  | KMaxEx l => compared Z.gt l o
  | _ => True
  end.

Lemma first_datatype (cs : list component) d : In (KDatatype d) cs -> (forall d', In (KDatatype d') cs -> d' = d) ->
  datatype_of (somes (List.map convert_component cs)) = Some d.
Proof.
  induction cs as [|c cs IH]; intros I U; [destruct I|]. assert (U' : forall d', In (KDatatype d') cs -> d' = d) by (intros; apply U; right; assumption).
  destruct c; cbn in *; try (apply IH; [destruct I as [I|I]; [discriminate|exact I]|exact U']). rewrite (U d0) by auto. reflexivity.
Qed.
Lemma no_refs (cs : list component) : (forall n, ~ In (KNode n) cs) -> refs_of (somes (List.map convert_component cs)) = [].
Proof.
  induction cs as [|c cs IH]; intros U; [reflexivity|]. assert (U' : forall n, ~ In (KNode n) cs) by (intros n I; apply (U n); right; assumption).
  destruct c; cbn in *; try (apply IH, U'). destruct (U n). left. reflexivity.
Qed.

Lemma easy_shape_value (cs : list component) p : texts -> easy_values cs -> exists d, let us := somes (List.map convert_component cs) in
  us <> [] /\ datatype_of us = Some d /\ refs_of us = [] /\
  always (fun o => forall c, In c cs -> single c o) (bind (parameters checks us) (fun ps => bind (generate_field rand d p ps) (fun s => ret (create_typed_literal s d)))).
Proof.
  intros T (d & Id & Kn & All & lo & hi & Le & S1 & S2 & Lo & NoLo & Hi & NoHi). exists d. cbv zeta.
  assert (Du : forall d', In (KDatatype d') cs -> d' = d).
  { intros d' I. destruct (All _ I) as [E|[(k & E & _)|[(z & [E|E])|(_ & [(l & [E|E])|(l & [E|E])])]]]; congruence. }
  assert (Dt : datatype_of (somes (List.map convert_component cs)) = Some d) by (apply first_datatype; assumption).
  split. { intro E. rewrite E in Dt. discriminate. } split; [exact Dt|]. split.
  { apply no_refs. intros n I. destruct (All _ I) as [E|[(k & E & _)|[(z & [E|E])|(_ & [(l & [E|E])|(l & [E|E])])]]]; congruence. }
  destruct (string_dec d (xsd "integer")) as [->|Nd].
  - intro n. destruct (bounds_params lo hi S1 S2 cs) with (m := @ret params []) (n := n) (ps := @nil (string * param)) as (ps & E & A & B); [|reflexivity|].
    { intros c I. split; [|split; [apply Lo, I|apply Hi, I]]. destruct (All c I) as [E|[(k & E & _)|[(z & E)|(_ & E)]]]; [left; left; eauto|left; right; left; eauto|left; right; right; eauto|right; exact E]. }
    unfold bind at 1. change (parameters checks (somes (List.map convert_component cs))) with (fold_left par_step (somes (List.map convert_component cs)) (@ret params [])). rewrite E. clear E. revert n.
    change (always (fun o => forall c, In c cs -> single c o) (bind (generate_field rand (xsd "integer") p ps) (fun s => ret (create_typed_literal s (xsd "integer"))))).
    eapply always_bind; [apply (field_integer rand p ps lo hi Le)|].
    + split; unfold int_param.
      * destruct A as [->|[-> A]]; [apply as_i32_small, S1|]. destruct NoLo as [->|(c & I & Be)]; [reflexivity|destruct (A c I Be)].
      * destruct B as [->|[-> B]]; [apply as_i32_small, S2|]. destruct NoHi as [->|(c & I & Ab)]; [reflexivity|destruct (B c I Ab)].
    + intros s (z & Dz & Rz). apply always_ret. rewrite known_typed by exact Kn. intros c I. destruct (All c I) as [->|[(k & -> & K)|[(y & [-> | ->])|(_ & [Be|Ab])]]]; try exact Logic.I; [eexists; reflexivity|exact K| |].
      * destruct (Lo c I Be) as [(l & -> & R)|(l & y & -> & R & E)]; cbn; exists s, (xsd "integer"), z; eexists; (split; [reflexivity|]); (split; [exact Dz|]); (split; [exact R|]); lia.
      * destruct (Hi c I Ab) as [(l & -> & R)|(l & y & -> & R & E)]; cbn; exists s, (xsd "integer"), z; eexists; (split; [reflexivity|]); (split; [exact Dz|]); (split; [exact R|]); lia.
  - assert (Si : forall c, In c cs -> silent c).
    { intros c I. destruct (All c I) as [E|[(k & E & _)|[(z & E)|(E & _)]]]; [left; eauto|right; left; eauto|right; right; eauto|destruct (Nd E)]. }
    intro n. unfold bind at 1. change (parameters checks (somes (List.map convert_component cs))) with (fold_left par_step (somes (List.map convert_component cs)) (@ret params [])). rewrite (silent_params cs Si (@ret params []) n [] eq_refl). revert n.
    change (always (fun o => forall c, In c cs -> single c o) (bind (generate_field rand d p []) (fun s => ret (create_typed_literal s d)))).
    eapply always_bind; [apply field_made; assumption|]. intros s _. apply always_ret. rewrite known_typed by exact Kn. intros c I.
    destruct (All c I) as [->|[(k & -> & K)|[(y & [-> | ->])|(E & _)]]]; try exact Logic.I; [eexists; reflexivity|exact K|destruct (Nd E)].
Qed.

(* ------------------------------------------------------------------ *)
(* A property                                                           *)

Variable cfg : config.
Variable infos : list (string * info).
Definition numbered (cs : list component) (k : nat) : Prop :=
  forall z, (In (KMinCount z) cs -> z <= Z.of_nat k /\ z <= 1) /\ (In (KMaxCount z) cs -> Z.of_nat k <= z).
Lemma easy_shape_property ps cf node idx : texts -> easy_property_shape ps -> 0 <= idx -> c_ignore cf = false ->
  always (fun ts => exists os, ts = List.map (fun o => {| tr_s := node; tr_p := show_path (ps_path ps); tr_o := o |}) os /\
      numbered (ps_comps ps) (List.length os) /\ Forall (fun o => forall c, In c (ps_comps ps) -> single c o) os)
    (property_triples checks rand cfg infos cf node idx (to_prop (convert_property ps))).
Proof.
  intros T (Pa & Ev & (mn & mx & A & B & Rm & Rx)) I Ig. unfold property_triples. rewrite Ig. set (i := show_path (ps_path ps)).
  destruct (easy_shape_value (ps_comps ps) i T Ev) as (d & Ne & D & Rf & V).
  assert (Ex : extract_cardinality (ps_comps ps) = (mn, mx)).
  { apply extracted; [exact A|exact B| |]; intros z E; subst; cbn in *; lia. }
  unfold to_prop, convert_property. cbn [p_min p_max p_ref p_datatype p_cons p_iri u_iri u_cons u_min u_max]. fold i. rewrite Ex. cbn [fst snd].
  assert (Eus : match somes (List.map convert_component (ps_comps ps)) with [] => [CDatatype (xsd "string")] | _ => somes (List.map convert_component (ps_comps ps)) end = somes (List.map convert_component (ps_comps ps))).
  { destruct (somes (List.map convert_component (ps_comps ps))); [destruct (Ne eq_refl)|reflexivity]. }
  rewrite Eus, D, Rf. cbn [hd_error].
  assert (S1 : option_map as_i32 mn = mn). { destruct mn as [m|]; [|reflexivity]. cbn. rewrite as_i32_small by lia. reflexivity. }
  assert (S2 : option_map as_i32 mx = mx). { destruct mx as [m|]; [|reflexivity]. cbn. rewrite as_i32_small by (destruct mn; lia). reflexivity. }
  rewrite S1, S2.
  eapply always_bind; [apply value_count_between with (mn := mn) (mx := mx); [|exact I]|].
  - unfold can_be_met. destruct mn as [m|], mx as [k|]; cbn in *; lia.
  - intros k [K Bt].
    eapply always_weaken; [|apply always_each with (P := fun (_ : Z) ts => exists o, ts = [{| tr_s := node; tr_p := i; tr_o := o |}] /\ forall c, In c (ps_comps ps) -> single c o)].
    + intros ts (rs & -> & F).
      assert (X : exists os, List.concat rs = List.map (fun o => {| tr_s := node; tr_p := i; tr_o := o |}) os /\ List.length os = List.length (upto k) /\ Forall (fun o => forall c, In c (ps_comps ps) -> single c o) os).
      { clear -F. induction F as [|z ts l rs (o & -> & Po) F (os & E1 & E2 & E3)]; [exists []; auto|]. exists (o :: os). cbn. rewrite E1, E2. auto. }
      destruct X as (os & E1 & E2 & E3). exists os. split; [exact E1|]. split; [|exact E3]. rewrite E2. unfold upto. rewrite map_length, seq_length. unfold numbered. rewrite Z2Nat.id by exact K.
      intro z. unfold between in Bt. destruct Bt as [B1 B2]. split.
      * intro Iz. destruct mn as [m|]; [|destruct (A z Iz)]. rewrite (proj2 A z Iz). lia.
      * intro Iz. destruct mx as [m|]; [|destruct (B z Iz)]. rewrite (proj2 B z Iz). destruct mn; lia.
    + intros v _. intro x. destruct (V x) as (o & n' & Ev' & Mo). unfold bind in Ev' |- *.
      destruct (parameters checks (somes (List.map convert_component (ps_comps ps))) x) as [[pa x']| |]; try discriminate.
      destruct (generate_field rand d i pa x') as [[s x'']| |]; try discriminate. unfold ret in *. injection Ev' as <- <-. eexists _, _. split; [reflexivity|]. eauto.
Qed.
End Values.
