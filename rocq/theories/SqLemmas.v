(* Lemmas for C88. *)
From Coq Require Import List String Ascii Bool Arith Lia ZArith Permutation DecimalString DecimalNat.
Import ListNotations.
From Verif Require Import SjModel CoModel CoSpec CoLemmas SqModel SqSpec.
Open Scope string_scope.

(* ------------------------------------------------------------------ *)
(* Names                                                               *)

Lemma strip_iff ns : forall s r, strip ns s = Some r <-> s = ns ++ r.
Proof.
  induction ns as [|a ns IH]; intros s r; cbn; [split; congruence|]. destruct s as [|b s]; [split; discriminate|].
  destruct (Ascii.eqb_spec a b) as [->|N]; [rewrite IH; split; congruence|split; [discriminate|congruence]].
Qed.
Lemma longest_from_spec i : forall pm best,
  match longest_from best pm i with
  | None => best = None /\ forall a ns v, In (a, ns) pm -> i <> ns ++ v
  | Some (a, v) => (best = Some (a, v) \/ exists ns, In (a, ns) pm /\ i = ns ++ v) /\
      (forall b v', best = Some (b, v') -> String.length v <= String.length v') /\
      forall a' ns v', In (a', ns) pm -> i = ns ++ v' -> String.length v <= String.length v'
  end.
Proof.
  induction pm as [|[a ns] pm IH]; intros best; cbn [longest_from].
  - destruct best as [[a v]|]; [|split; [reflexivity|intros a ns v []]]. split; [left; reflexivity|]. split; [intros b v' [= <- <-]; lia|intros a' ns v' []].
  - destruct (strip ns i) as [r|] eqn:E.
    + apply strip_iff in E.
      specialize (IH match best with Some (b, r') => if Nat.ltb (String.length r') (String.length r) then best else Some (a, r) | None => Some (a, r) end).
      destruct (longest_from _ pm i) as [[a' v]|].
      * destruct IH as (A & B & C). split; [|split].
        -- destruct A as [A|(ns' & A & A')]; [|right; exists ns'; split; [right|]; assumption]. destruct best as [[b r']|].
           ++ destruct (Nat.ltb (String.length r') (String.length r)); [left; exact A|]. injection A as <- <-. right. exists ns. split; [left; reflexivity|exact E].
           ++ injection A as <- <-. right. exists ns. split; [left; reflexivity|exact E].
        -- intros b v' ->. destruct (Nat.ltb_spec (String.length v') (String.length r)); [exact (B b v' eq_refl)|]. specialize (B a r eq_refl). lia.
        -- intros a'' ns'' v'' [[= <- <-]|K] E''; [|exact (C _ _ _ K E'')]. assert (v'' = r) as ->.
           { apply (strip_iff ns i) in E''. apply (strip_iff ns i) in E. congruence. }
           destruct best as [[b r']|]; [|exact (B _ _ eq_refl)]. destruct (Nat.ltb_spec (String.length r') (String.length r)); [|exact (B _ _ eq_refl)]. specialize (B _ _ eq_refl). lia.
      * destruct IH as [A _]. destruct best as [[b r']|]; [destruct (Nat.ltb _ _)|]; discriminate A.
    + specialize (IH best). destruct (longest_from best pm i) as [[a' v]|].
      * destruct IH as (A & B & C). split; [destruct A as [A|(ns' & A & A')]; [left; exact A|right; exists ns'; split; [right|]; assumption]|]. split; [exact B|].
        intros a'' ns'' v'' [[= <- <-]|K] E''; [|exact (C _ _ _ K E'')]. apply strip_iff in E''. congruence.
      * destruct IH as (A & B). split; [exact A|]. intros a'' ns'' v'' [[= <- <-]|K] E''; [|exact (B _ _ _ K E'')]. apply strip_iff in E''. congruence.
Qed.
Lemma length_app s t : String.length (s ++ t) = String.length s + String.length t.
Proof. induction s as [|c s IH]; cbn; [reflexivity|]. rewrite IH. reflexivity. Qed.
Lemma suffix_fun : forall a b v w : string, a ++ v = b ++ w -> String.length v = String.length w -> v = w.
Proof.
  induction a as [|c a IH]; intros [|d b] v w E H; cbn in E.
  - exact E.
  - subst v. cbn in H. rewrite length_app in H. lia.
  - subst w. cbn in H. rewrite length_app in H. lia.
  - injection E as _ E. exact (IH b v w E H).
Qed.
Lemma named_fun pm i v w : named_after pm i v -> named_after pm i w -> v = w.
Proof.
  intros [(a & ns & A & E) M] [(b & ns' & B & E') M']. pose proof (M _ _ _ B E'). pose proof (M' _ _ _ A E). apply (suffix_fun ns ns'); [congruence|lia].
Qed.
Lemma qualify_local_iff pm i v : qualify_local pm i = Some v <-> named_after pm i v.
Proof.
  unfold qualify_local, longest. pose proof (longest_from_spec i pm None) as H. destruct (longest_from None pm i) as [[a w]|]; cbn [option_map snd].
  - destruct H as ([A|(ns & A & E)] & _ & C); [discriminate A|]. assert (W : named_after pm i w) by (split; [exists a, ns; split; assumption|exact C]).
    split; [intros [= <-]; exact W|intro V; rewrite (named_fun pm i v w V W); reflexivity].
  - destruct H as [_ H]. split; [discriminate|]. intros [(a & ns & A & E) _]. exfalso. exact (H _ _ _ A E).
Qed.
Lemma qualify_text pm i : iri_text pm (qualify pm i) i.
Proof.
  unfold qualify, longest. pose proof (longest_from_spec i pm None) as H. destruct (longest_from None pm i) as [[a w]|]; [|left; reflexivity].
  destruct H as ([A|(ns & A & E)] & _); [discriminate A|]. right. exists a, ns, w. auto.
Qed.
Lemma to_uint_some n : Nat.to_uint n <> Decimal.Nil.
Proof. intro K. pose proof (Unsigned.of_to n) as O. rewrite K in O. cbn in O. subst n. discriminate K. Qed.
Lemma generated_inj n m : generated n = generated m -> n = m.
Proof.
  unfold generated. cbn. intros [= E]. apply (f_equal NilZero.uint_of_string) in E. rewrite !NilZero.usu in E by apply to_uint_some.
  injection E as E. apply (f_equal Nat.of_uint) in E. rewrite !Unsigned.of_to in E. exact E.
Qed.

(* ------------------------------------------------------------------ *)
(* Patterns                                                             *)

Section Patterns.
Context {L : lib}.

Lemma texpr_ind' (P : texpr -> Prop) :
  (forall id l mn mx a n, Forall P l -> P (TEach id l mn mx a n)) -> (forall id l mn mx a n, Forall P l -> P (TOne id l mn mx a n)) ->
  (forall id neg inv p ve mn mx a n, P (TTriple id neg inv p ve mn mx a n)) -> (forall l, P (TRef l)) -> forall te, P te.
Proof.
  intros HE HO HT HR. fix go 1. intros [id l mn mx a n|id l mn mx a n|id neg inv p ve mn mx a n|l]; [apply HE|apply HO|apply HT|apply HR];
    (induction l as [|te l IH]; constructor; [apply go|exact IH]).
Qed.

Variables (this : string) (sch : schema).

Fixpoint all_patterns (l : list texpr) (n : nat) : res (list pattern * nat) :=
  match l with
  | [] => Ok ([], n)
  | te :: l => rbind (triple_expr2patterns this sch te n) (fun r => rbind (all_patterns l (snd r)) (fun r' => Ok ((fst r ++ fst r')%list, snd r')))
  end.
Lemma each_patterns id l mn mx a x n : triple_expr2patterns this sch (TEach id l mn mx a x) n = all_patterns l n.
Proof. reflexivity. Qed.
Lemma one_patterns id l mn mx a x n : triple_expr2patterns this sch (TOne id l mn mx a x) n = all_patterns l n.
Proof. reflexivity. Qed.

Lemma var_ok p n : (exists r, var_from_predicate sch p n = Ok r) <-> nameable sch p.
Proof.
  unfold nameable. destruct p as [i|a l]; cbn [var_from_predicate name_of].
  - destruct (s_prefixes sch) as [pm|]; [|split; [intros _ pm [=]|intros _; eauto]]. split.
    + intros (r & E) pm' [= <-]. destruct (qualify_local pm i) as [v|] eqn:Q; [|discriminate]. apply qualify_local_iff in Q. eauto.
    + intro H. destruct (H pm eq_refl) as (v & K). apply qualify_local_iff in K. rewrite K. eauto.
  - split; eauto.
Qed.

Definition te_fine (te : texpr) : Prop := forward te /\ forall p, mentions te p -> nameable sch p.
Lemma all_ok l : Forall (fun te => forall n, (exists r, triple_expr2patterns this sch te n = Ok r) <-> te_fine te) l ->
  forall n, (exists r, all_patterns l n = Ok r) <-> fold_right and True (List.map forward l) /\ forall p, (exists ve, In (p, ve) (flat_map constraints l)) -> nameable sch p.
Proof.
  induction 1 as [|te l H F IH]; intro n; cbn [all_patterns List.map fold_right flat_map].
  - split; [intros _; split; [exact Logic.I|intros p (ve & [])]|eauto].
  - split.
    + intros (r & E). destruct (triple_expr2patterns this sch te n) as [[ps n']| |] eqn:E1; cbn [rbind] in E; try discriminate. cbn [fst snd] in E.
      destruct (all_patterns l n') as [[ps' n'']| |] eqn:E2; cbn [rbind] in E; try discriminate.
      pose proof (proj1 (H n) (ex_intro _ _ E1)) as (A & B). pose proof (proj1 (IH n') (ex_intro _ _ E2)) as (A' & B'). split; [split; assumption|].
      intros p (ve & K). apply in_app_or in K. destruct K as [K|K]; [apply B|apply B']; exists ve; exact K.
    + intros ((A & A') & B). destruct (proj2 (H n)) as ((ps & n') & E1).
      { split; [exact A|]. intros p (ve & K). apply B. exists ve. apply in_or_app. left. exact K. }
      destruct (proj2 (IH n')) as ((ps' & n'') & E2).
      { split; [exact A'|]. intros p (ve & K). apply B. exists ve. apply in_or_app. right. exact K. }
      rewrite E1. cbn [rbind fst snd]. rewrite E2. cbn [rbind]. eauto.
Qed.
Lemma te_ok te : forall n, (exists r, triple_expr2patterns this sch te n = Ok r) <-> te_fine te.
Proof.
  induction te as [id l mn mx a x F|id l mn mx a x F|id neg inv p ve mn mx a x|l] using texpr_ind'; intro n.
  - rewrite each_patterns. apply (all_ok l F).
  - rewrite one_patterns. apply (all_ok l F).
  - unfold te_fine, mentions. cbn [constraints forward]. pose proof (var_ok p n) as V. assert (Q : inv = Some true \/ inv <> Some true) by (destruct inv as [[|]|]; [left; reflexivity|right; discriminate|right; discriminate]).
    destruct Q as [->|Q]; [cbn; split; [intros (r & K); discriminate K|intros [K _]; exfalso; apply K; reflexivity]|].
    assert (E : triple_expr2patterns this sch (TTriple id neg inv p ve mn mx a x) n = rbind (var_from_predicate sch p n) (fun v => Ok ([{| t_subj := this; t_pred := p; t_obj := fst v |}], snd v))).
    { destruct inv as [[|]|]; [contradiction|reflexivity|reflexivity]. }
    rewrite E. split.
    + intros (r & K). split; [exact Q|]. intros p' (ve' & [[= <- <-]|[]]). apply V. destruct (var_from_predicate sch p n); [eauto|discriminate|discriminate].
    + intros [_ K]. destruct (proj2 V (K p (ex_intro _ ve (or_introl eq_refl)))) as (r & R). rewrite R. cbn [rbind]. eauto.
  - unfold te_fine. cbn. split; [intros (r & K); discriminate K|intros [[] _]].
Qed.

(* What the patterns are. *)
Definition is_iri (p : iriref) : Prop := exists i, p = Iri i.
Definition good (cs : list (iriref * option sexpr)) (n : nat) (ps : list pattern) (n' : nat) : Prop :=
  List.map t_pred ps = List.map fst cs /\ Forall (fun t => t_subj t = this) ps /\
  (forall pm, s_prefixes sch = Some pm -> Forall (fun t => name_of pm (t_pred t) (t_obj t)) ps) /\
  (s_prefixes sch = None -> n <= n' /\ (Forall (fun t => is_iri (t_pred t)) ps -> Forall (fun t => exists k, n < k <= n' /\ t_obj t = generated k) ps /\ NoDup (List.map t_obj ps))).
Lemma good_app cs cs' n n' n'' ps ps' : good cs n ps n' -> good cs' n' ps' n'' -> good (cs ++ cs') n (ps ++ ps') n''.
Proof.
  intros (A & B & C & D) (A' & B' & C' & D'). split; [rewrite !map_app; congruence|]. split; [apply Forall_app; split; assumption|].
  split; [intros pm E; apply Forall_app; split; [exact (C pm E)|exact (C' pm E)]|]. intro N. destruct (D N) as [D1 D2], (D' N) as [D1' D2']. split; [lia|].
  intro F. apply Forall_app in F. destruct F as [F F']. destruct (D2 F) as [G1 G2], (D2' F') as [G1' G2']. split.
  - apply Forall_app. split; [apply (Forall_impl _ (fun t K => match K with ex_intro _ k (conj R E) => ex_intro _ k (conj (conj (proj1 R) (Nat.le_trans _ _ _ (proj2 R) D1')) E) end) G1)|].
    apply (Forall_impl _ (fun t K => match K with ex_intro _ k (conj R E) => ex_intro _ k (conj (conj (Nat.le_lt_trans _ _ _ D1 (proj1 R)) (proj2 R)) E) end) G1').
  - rewrite map_app. clear - G1 G2 G1' G2'. induction ps as [|t ps IH]; [exact G2'|]. cbn. cbn in G2. inversion G2 as [|? ? NI ND]; subst. inversion G1 as [|? ? (k & R & E) GF]; subst. constructor; [|exact (IH GF ND)].
    intro K. apply in_app_or in K. destruct K as [K|K]; [exact (NI K)|]. apply in_map_iff in K. destruct K as (t' & E' & K). rewrite Forall_forall in G1'. destruct (G1' t' K) as (k' & R' & E''). rewrite E', E in E''. apply generated_inj in E''. lia.
Qed.
Lemma te_good : forall te n ps n', triple_expr2patterns this sch te n = Ok (ps, n') -> good (constraints te) n ps n'.
Proof.
  assert (AL : forall l, Forall (fun te => forall n ps n', triple_expr2patterns this sch te n = Ok (ps, n') -> good (constraints te) n ps n') l ->
    forall n ps n', all_patterns l n = Ok (ps, n') -> good (flat_map constraints l) n ps n').
  { induction 1 as [|te l H F IH]; intros n ps n' E; cbn [all_patterns] in E.
    - injection E as <- <-. split; [reflexivity|]. split; [constructor|]. split; [constructor|]. intros _. split; [lia|]. intros _. split; constructor.
    - destruct (triple_expr2patterns this sch te n) as [[ps1 n1]| |] eqn:E1; cbn [rbind fst snd] in E; try discriminate. destruct (all_patterns l n1) as [[ps2 n2]| |] eqn:E2; cbn [rbind fst snd] in E; try discriminate.
      injection E as <- <-. exact (good_app _ _ _ _ _ _ _ (H _ _ _ E1) (IH _ _ _ E2)). }
  intro te. induction te as [id l mn mx a x F|id l mn mx a x F|id neg inv p ve mn mx a x|l] using texpr_ind'; intros n ps n' E.
  - rewrite each_patterns in E. exact (AL l F _ _ _ E).
  - rewrite one_patterns in E. exact (AL l F _ _ _ E).
  - assert (E' : rbind (var_from_predicate sch p n) (fun v => Ok ([{| t_subj := this; t_pred := p; t_obj := fst v |}], snd v)) = Ok (ps, n')) by (cbn in E; destruct inv as [[|]|]; [discriminate|exact E|exact E]).
    clear E. destruct (var_from_predicate sch p n) as [[v m]| |] eqn:V; cbn [rbind fst snd] in E'; try discriminate. injection E' as <- <-. split; [reflexivity|]. split; [constructor; [reflexivity|constructor]|]. split.
    + intros pm E. constructor; [|constructor]. cbn [t_pred t_obj]. unfold var_from_predicate in V. rewrite E in V. destruct p as [i|a' l]; cbn [name_of]; [|congruence]. destruct (qualify_local pm i) as [w|] eqn:Q; [|discriminate]. apply qualify_local_iff in Q. congruence.
    + intro N. unfold var_from_predicate in V. rewrite N in V. destruct p as [i|a' l].
      * injection V as <- <-. split; [lia|]. intros _. split; [constructor; [exists (S n); split; [lia|reflexivity]|constructor]|constructor; [intros []|constructor]].
      * injection V as <- <-. split; [lia|]. intro F. inversion F as [|? ? (i & K) _]. discriminate K.
  - discriminate E.
Qed.

Definition of_shape (te : option texpr) : res (list pattern) := match te with Some te => rmap fst (triple_expr2patterns this sch te 0) | None => Ok [] end.
Lemma of_shape_ok te : (exists ps, of_shape te = Ok ps) <-> convertible sch te.
Proof.
  unfold convertible. destruct te as [te|]; cbn [of_shape]; [|split; [intros _ te' [=]|eauto]]. split.
  - intros (ps & E) te' [= <-]. apply (te_ok te 0). destruct (triple_expr2patterns this sch te 0) as [r| |]; [eauto|discriminate|discriminate].
  - intro H. destruct (proj2 (te_ok te 0) (H te eq_refl)) as (r & E). rewrite E. cbn. eauto.
Qed.

(* ------------------------------------------------------------------ *)
(* Following references                                                 *)
Hypothesis PF : prefixes_fine sch.

Lemma by_iri_iff i e : find_shape_by_iri_ref sch i = Ok (Some e) <-> exists l, stands_for (prefixes_of sch) i l /\ labelled sch l e.
Proof.
  unfold find_shape_by_iri_ref. change (match s_prefixes sch with Some pm => pm | None => [] end) with (prefixes_of sch). split.
  - destruct (s_shapes sch) as [ds|] eqn:SS; [|discriminate]. destruct (resolve_iriref (prefixes_of sch) i) as [l| |] eqn:R; cbn [rbind]; try discriminate. intro F. exists l. split; [apply (resolve_iff _ _ _ PF), R|].
    apply (find_decl_iff sch PF) in F. destruct F as (b & d & a & -> & F). exists b, d, a. auto.
  - intros (l & ST & b & d & a & SS & F). rewrite SS. apply (resolve_iff _ _ _ PF) in ST. rewrite ST. cbn [rbind]. apply (find_decl_iff sch PF). exists b, d, a. auto.
Qed.
Lemma reach_run e te : reaches sch e te -> exists f, shape_expr2patterns this sch f e = Some (of_shape te).
Proof.
  induction 1 as [c x te a n ex|i l e te ST LA R (f & IH)]; [exists 1; destruct te; reflexivity|]. exists (S f). cbn [shape_expr2patterns find_shape_by_label].
  rewrite (proj2 (by_iri_iff i e)); [exact IH|]. eauto.
Qed.
Lemma run_reach f : forall e ps, shape_expr2patterns this sch f e = Some (Ok ps) -> exists te, reaches sch e te /\ of_shape te = Ok ps.
Proof.
  induction f as [|f IH]; intros e ps E; [discriminate|]. destruct e as [| | | |c x te a n ex| |l]; cbn [shape_expr2patterns] in E; try discriminate.
  - exists te. split; [constructor|]. destruct te as [te|]; cbn [of_shape]; congruence.
  - destruct l as [i|b|]; cbn [find_shape_by_label] in E; try discriminate. destruct (find_shape_by_iri_ref sch i) as [[e|]| |] eqn:F; try discriminate.
    destruct (IH _ _ E) as (te & R & O). apply by_iri_iff in F. destruct F as (l & ST & LA). exists te. split; [|exact O]. econstructor; eassumption.
Qed.
Lemma labelled_fun l e e' : labelled sch l e -> labelled sch l e' -> e = e'.
Proof.
  intros A B. assert (A' : find_decl (prefixes_of sch) l (match s_shapes sch with Some ds => ds | None => [] end) = Ok (Some e)).
  { destruct A as (b & d & a & SS & F). rewrite SS. apply (find_decl_iff sch PF). exists b, d, a. auto. }
  assert (B' : find_decl (prefixes_of sch) l (match s_shapes sch with Some ds => ds | None => [] end) = Ok (Some e')).
  { destruct B as (b & d & a & SS & F). rewrite SS. apply (find_decl_iff sch PF). exists b, d, a. auto. }
  congruence.
Qed.
Lemma reaches_fun e te te' : reaches sch e te -> reaches sch e te' -> te = te'.
Proof.
  intro R. revert te'. induction R as [c x te a n ex|i l e te ST LA R IH]; intros te' R'; inversion R'; subst; [reflexivity|].
  match goal with H : stands_for _ i ?l', H' : labelled _ ?l' ?e', H'' : reaches _ ?e' te' |- _ => assert (l' = l) as -> by exact (stands_fun _ _ _ _ PF H ST); rewrite (labelled_fun _ _ _ H' LA) in H''; exact (IH _ H'') end.
Qed.
Lemma chosen_fun sh e e' : chosen sch sh e -> chosen sch sh e' -> e = e'.
Proof.
  destruct sh as [i|]; cbn [chosen].
  - intros (l & A & B) (l' & A' & B'). rewrite (stands_fun _ _ _ _ PF A' A) in B'. exact (labelled_fun _ _ _ B B').
  - intros [A|(A & d & ds & B & C)] [A'|(A' & d' & ds' & B' & C')]; congruence.
Qed.
Lemma convert_iff sh q : (exists f, convert this sch f sh = Some (Ok q)) <->
  exists e te ps, chosen sch sh e /\ reaches sch e te /\ of_shape te = Ok ps /\ q = {| q_prefixes := s_prefixes sch; q_base := s_base sch; q_patterns := ps |}.
Proof.
  assert (Q : forall e, (exists f, shape_expr2query this sch f e = Some (Ok q)) <-> exists te ps, reaches sch e te /\ of_shape te = Ok ps /\ q = {| q_prefixes := s_prefixes sch; q_base := s_base sch; q_patterns := ps |}).
  { intro e. unfold shape_expr2query. split.
    - intros (f & E). destruct (shape_expr2patterns this sch f e) as [[ps| |]|] eqn:P; cbn in E; try discriminate. injection E as <-. destruct (run_reach _ _ _ P) as (te & R & O). exists te, ps. auto.
    - intros (te & ps & R & O & ->). destruct (reach_run _ _ R) as (f & P). exists f. rewrite P, O. reflexivity. }
  destruct sh as [i|]; cbn [convert chosen].
  - split.
    + intros (f & E). destruct (find_shape_by_iri_ref sch i) as [[e|]| |] eqn:F; try discriminate. destruct (proj1 (Q e) (ex_intro _ f E)) as (te & ps & K). apply by_iri_iff in F. eauto.
    + intros (e & te & ps & CH & K). apply by_iri_iff in CH. rewrite CH. apply Q. eauto.
  - destruct (s_start sch) as [e|].
    + rewrite Q. split; [intros (te & ps & K); exists e, te, ps; auto|]. intros (e' & te & ps & [[= <-]|([=] & _)] & K). eauto.
    + split.
      * intros (f & E). destruct (s_shapes sch) as [[|d ds]|]; try discriminate. destruct (proj1 (Q (d_expr d)) (ex_intro _ f E)) as (te & ps & K). exists (d_expr d), te, ps. split; [right; split; [reflexivity|exists d, ds; auto]|exact K].
      * intros (e & te & ps & [[=]|(_ & d & ds & -> & <-)] & K). apply Q. eauto.
Qed.

(* ------------------------------------------------------------------ *)
(* Answers                                                              *)
Section Answers.
Context {T : Type}.
Variable g : T -> string -> T -> Prop.

Lemma build pm (n : T) ps : NoDup (List.map fst pm) -> Forall (fun t => exists i o, stands_for pm (t_pred t) i /\ g n i o) ps ->
  (forall t t' i i', In t ps -> In t' ps -> t_obj t = t_obj t' -> stands_for pm (t_pred t) i -> stands_for pm (t_pred t') i' -> i = i') ->
  n = n -> exists mu : string -> T, forall t, In t ps -> exists i, stands_for pm (t_pred t) i /\ g n i (mu (t_obj t)).
Proof.
  intros ND F. induction F as [|t ps (i & o & ST & G) F IH]; intros H _; [exists (fun _ => n); intros t []|].
  destruct IH as (mu & M); [intros t1 t2 i1 i2 A B; apply H; right; assumption|reflexivity|]. exists (fun v => if String.eqb v (t_obj t) then o else mu v). intros t' [<-|K].
  - exists i. rewrite String.eqb_refl. auto.
  - destruct (M t' K) as (i' & ST' & G'). exists i'. split; [exact ST'|]. destruct (String.eqb_spec (t_obj t') (t_obj t)) as [E|_]; [|exact G'].
    rewrite (H t' t i' i (or_intror K) (or_introl eq_refl) E ST' ST). exact G.
Qed.
Lemma in_preds cs ps p : List.map t_pred ps = List.map fst cs -> (exists ve : option sexpr, In (p, ve) cs) <-> exists t, In t ps /\ t_pred t = p.
Proof.
  intro E. split.
  - intros (ve & K). apply (in_map fst) in K. rewrite <- E in K. apply in_map_iff in K. destruct K as (t & A & B). eauto.
  - intros (t & K & <-). apply (in_map t_pred) in K. rewrite E in K. apply in_map_iff in K. destruct K as ((p & ve) & A & B). cbn in A. subst. eauto.
Qed.
Lemma prefixes_eq : match s_prefixes sch with Some pm => pm | None => [] end = prefixes_of sch.
Proof. reflexivity. Qed.
Lemma answer_has te ps n : of_shape te = Ok ps -> answer g this {| q_prefixes := s_prefixes sch; q_base := s_base sch; q_patterns := ps |} n -> has_all g sch te n.
Proof.
  intros O (mu & MT & M) te' p -> (ve & K). cbn [q_prefixes q_patterns] in M. rewrite prefixes_eq in M. cbn [of_shape] in O. destruct (triple_expr2patterns this sch te' 0) as [[ps' m]| |] eqn:E; cbn in O; try discriminate. injection O as ->.
  destruct (te_good _ _ _ _ E) as (A & B & _). destruct (proj1 (in_preds _ _ p A) (ex_intro _ ve K)) as (t & I1 & <-). destruct (M t I1) as (i & ST & G). rewrite Forall_forall in B. rewrite (B t I1), MT in G. eauto.
Qed.
Lemma has_answer te ps n : of_shape te = Ok ps -> apart this sch te -> focus_apart this sch -> has_all g sch te n ->
  answer g this {| q_prefixes := s_prefixes sch; q_base := s_base sch; q_patterns := ps |} n.
Proof.
  intros O AP FA H. unfold answer. cbn [q_prefixes q_patterns]. rewrite prefixes_eq. destruct te as [te|]; cbn [of_shape] in O; [|injection O as <-; exists (fun _ => n); split; [reflexivity|intros t []]].
  destruct (triple_expr2patterns this sch te 0) as [[ps' m]| |] eqn:E; cbn in O; try discriminate. injection O as ->.
  destruct (te_good _ _ _ _ E) as (A & B & C & D). rewrite Forall_forall in B.
  assert (HH : forall t, In t ps -> exists i o, stands_for (prefixes_of sch) (t_pred t) i /\ g n i o).
  { intros t K. apply (H te (t_pred t) eq_refl). apply (in_preds _ _ _ A). eauto. }
  assert (X : (forall t, In t ps -> t_obj t <> this) /\ forall t t' i i', In t ps -> In t' ps -> t_obj t = t_obj t' -> stands_for (prefixes_of sch) (t_pred t) i -> stands_for (prefixes_of sch) (t_pred t') i' -> i = i').
  { unfold focus_apart in FA. destruct (s_prefixes sch) as [pm|] eqn:EP.
    - assert (PM : prefixes_of sch = pm) by (unfold prefixes_of; rewrite EP; reflexivity). rewrite PM in *. specialize (C pm eq_refl). rewrite Forall_forall in C. destruct (AP te pm eq_refl EP) as [A1 A2]. split.
      + intros t K Q. apply (A1 (t_pred t)); [apply (in_preds _ _ _ A); eauto|]. rewrite <- Q. exact (C t K).
      + intros t t' i i' K K' Q. apply (A2 (t_pred t) (t_pred t') (t_obj t)); [apply (in_preds _ _ _ A); eauto|apply (in_preds _ _ _ A); eauto|exact (C t K)|rewrite Q; exact (C t' K')].
    - assert (PM : prefixes_of sch = []) by (unfold prefixes_of; rewrite EP; reflexivity). rewrite PM in *. destruct (D eq_refl) as [_ D'].
      assert (F : Forall (fun t => is_iri (t_pred t)) ps).
      { apply Forall_forall. intros t K. destruct (HH t K) as (i & o & ST & _). destruct (t_pred t) as [j|a l]; [exists j; reflexivity|]. exfalso. destruct l; cbn in ST; [exact ST|]. destruct ST as (ns & [] & _). }
      destruct (D' F) as [G ND]. rewrite Forall_forall in G. split.
      + intros t K Q. destruct (G t K) as (k & _ & EK). rewrite Q in EK. specialize (FA eq_refl). rewrite EK in FA. unfold generated in FA. cbn in FA. destruct (NilZero.string_of_uint (Nat.to_uint k)); discriminate FA.
      + intros t t' i i' K K' Q ST ST'. assert (t = t') as <-.
        { clear - ND K K' Q. induction ps as [|u ps IH]; [destruct K|]. cbn in ND. inversion ND as [|? ? NI ND']; subst. destruct K as [<-|K], K' as [<-|K'].
          - reflexivity.
          - exfalso. apply NI. rewrite Q. apply in_map. exact K'.
          - exfalso. apply NI. rewrite <- Q. apply in_map. exact K.
          - exact (IH ND' K K'). }
        exact (stands_fun [] _ _ _ (NoDup_nil _) ST ST'). }
  destruct X as [X1 X2]. destruct (build (prefixes_of sch) n ps PF) as (mu & M); [apply Forall_forall; exact HH|exact X2|reflexivity|].
  exists (fun v => if String.eqb v this then n else mu v). rewrite String.eqb_refl. split; [reflexivity|]. intros t K. destruct (M t K) as (i & ST & G). exists i. split; [exact ST|]. rewrite (B t K), String.eqb_refl.
  destruct (String.eqb_spec (t_obj t) this) as [Q|_]; [exfalso; exact (X1 t K Q)|exact G].
Qed.
End Answers.
End Patterns.
