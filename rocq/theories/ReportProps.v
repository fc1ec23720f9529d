(** Reports: comparing them (C33), writing and reading them (C55), reading paths (C56). *)
From Coq Require Import List Bool NArith Permutation Lia Arith.
Import ListNotations.
From Verif Require Import PathModel PathSpec PathLemmas ReportModel ReportSpec ReportLemmas ReportWrite.

(** ** C33. Two reports are equal exactly when they have the same results. *)
(** equality of objects is an equivalence (for numeric literals see C26) *)
Record equality (oeqb : term -> term -> bool) (same : term -> term -> Prop) : Prop := mkEquality {
  eq_decides : forall a b, oeqb a b = true <-> same a b;
  eq_refl_ : forall a, same a a;
  eq_sym_ : forall a b, same a b -> same b a;
  eq_trans_ : forall a b c, same a b -> same b c -> same a c
}.
Lemma term_equality : equality term_eqb eq.
Proof. constructor; intros; try congruence. apply term_eqb_iff. Qed.

Theorem C33_same oeqb same a b : equality oeqb same -> same_results same (results a) (results b) -> report_eqb oeqb a b = true /\ report_eqb oeqb b a = true.
Proof.
  intros [D R S T] H. split; apply (same_results_eqb oeqb same D S); [exact H|]. apply same_results_sym; assumption.
Qed.
Print Assumptions C33_same.
Theorem C33_equivalent_partial oeqb same a b c : equality oeqb same -> report_eqb oeqb a a = true /\
  (report_eqb oeqb a b = true -> report_eqb oeqb b c = true -> report_eqb oeqb a c = true).
Proof.
  intros [D R S T]. split.
  - apply (report_eqb_iff oeqb same D). split; [reflexivity|]. intros r I. exists r. split; [exact I|]. apply alike_refl; exact R.
  - rewrite !(report_eqb_iff oeqb same D). intros [L1 H1] [L2 H2]. split; [congruence|]. intros r I. destruct (H1 r I) as (s & J & E).
    destruct (H2 s J) as (u & K & F). exists u. split; [exact K|]. eapply alike_trans; eassumption.
Qed.
Print Assumptions C33_equivalent_partial.
(** Full statement: without [distinct]. *)
Theorem C33_equal_partial oeqb same a b : equality oeqb same -> distinct same (results a) ->
  (report_eqb oeqb a b = true <-> same_results same (results a) (results b)) /\ (report_eqb oeqb a b = true -> report_eqb oeqb b a = true).
Proof.
  intros [D R S T] N.
  assert (X : report_eqb oeqb a b = true <-> same_results same (results a) (results b)).
  { split; [|apply (same_results_eqb oeqb same D S)]. intro H. apply (report_eqb_iff oeqb same D) in H. destruct H as [L H].
    apply distinct_same; assumption. }
  split; [exact X|]. intro H. apply X in H. apply (same_results_eqb oeqb same D S). apply same_results_sym; assumption.
Qed.
Print Assumptions C33_equal_partial.
Theorem C33_conforms oeqb same a b : equality oeqb same -> (conforms a = true <-> results a = []) /\ (report_eqb oeqb a b = true -> conforms a = conforms b).
Proof.
  intros [D R S T]. split; [unfold conforms; destruct (results a); split; congruence|]. intro H. apply (report_eqb_iff oeqb same D) in H. destruct H as [L _].
  unfold conforms. destruct (results a), (results b); try reflexivity; discriminate.
Qed.
Print Assumptions C33_conforms.
Theorem C33_count_partial same a b s : same_results same (results a) (results b) -> get_count_of a s = get_count_of b s.
Proof.
  intros (m & P & F). unfold get_count_of. assert (X : length (filter (fun r => severity_eqb (r_sev r) s) (results a)) = length (filter (fun r => severity_eqb (r_sev r) s) m)).
  { clear P. induction F as [|x y l l' A F IH]; [reflexivity|]. cbn [filter]. destruct A as (_ & _ & -> & _). destruct (severity_eqb (r_sev y) s); cbn; congruence. }
  rewrite X. clear X F. induction P as [|x l l' P IH|x y l|l l' l'' P1 IH1 P2 IH2]; cbn [filter]; try congruence;
    repeat match goal with |- context [severity_eqb (r_sev ?z) s] => destruct (severity_eqb (r_sev z) s) end; cbn; congruence.
Qed.
Print Assumptions C33_count_partial.
Definition bare (f : term) (s : severity) : result := mkResult f (TIri 100) s None None None None [].
Definition just (l : list result) : report := mkReport l 0 0.
Theorem C33_symmetric_refuted : exists a b, report_eqb term_eqb a b = true /\ report_eqb term_eqb b a = false /\
  ~ same_results eq (results a) (results b) /\ get_count_of a Violation <> get_count_of b Violation.
Proof.
  exists (just [bare (TIri 101) Violation; bare (TIri 101) Violation]), (just [bare (TIri 101) Violation; bare (TIri 101) Warning]).
  split; [reflexivity|]. split; [reflexivity|]. split; [|discriminate]. intro H.
  destruct term_equality as [D R S T]. apply (same_results_sym eq S) in H. apply (same_results_eqb term_eqb eq D S) in H. discriminate H.
Qed.
Print Assumptions C33_symmetric_refuted.
(** messages do not count *)
Example C33_met : report_eqb term_eqb (just [bare (TIri 1) Info; bare (TIri 2) Info]) (just [bare (TIri 2) Info; mkResult (TIri 1) (TIri 100) Info None None None None [7%N]]) = true /\
  distinct eq [bare (TIri 1) Info; bare (TIri 2) Info].
Proof.
  split; [reflexivity|]. constructor; [|constructor; constructor]. constructor; [|constructor]. intros (X & _). discriminate X.
Qed.

(** ** C55. A report that is written as RDF is read back as an equal report. *)
(** Full statement: without [Forall writable] and for every writer. *)
Theorem C55_round_trip_partial ord oeqb same to_term to_object a w n w' :
  any_order ord -> equality oeqb same -> (forall i, to_object (TIri i) = Some (TIri i)) -> Forall (writable same to_term to_object) (results a) -> ready w ->
  report_to_rdf to_term a w = (n, w') ->
  exists N, forall fuel pm f, N <= fuel -> exists b f', parse_report ord (w_triples w') to_object fuel n pm f = (Ok b, f') /\
    same_results same (results a) (results b) /\ report_eqb oeqb a b = true /\ report_eqb oeqb b a = true.
Proof.
  intros O E I W R H. destruct (report_written ord O same to_term to_object I a w n w' R H W) as (N & HN). exists N. intros fuel pm f L.
  destruct (HN fuel pm f L) as (b & f' & P & S). exists b, f'. split; [exact P|]. split; [exact S|]. apply C33_same with same; assumption.
Qed.
Print Assumptions C55_round_trip_partial.
(** the report says whether it conforms *)
Theorem C55_conforms to_term a w n w' : ready w -> report_to_rdf to_term a w = (n, w') ->
  only (w_triples w') n sh_conforms (to_term (TLit (if conforms a then lit_true else lit_false))).
Proof.
  intros R H. unfold report_to_rdf in H. destruct (add_bnode w) as [n1 w1] eqn:B.
  destruct (extends_bnode nobody w n1 w1 R B) as (E1 & -> & C1 & T1). set (k := w_counter w1) in *.
  assert (NO : forall p o, ~ In (TBnode k, p, o) (w_triples w1)). { intros p o I. rewrite T1 in I. apply R in I. lia. }
  unfold conforms. destruct (results a) as [|r rs] eqn:Ra.
  - injection H as <- <-. intro x. cbn [add_triple w_triples In]. split.
    + intros [I|[I|I]]; [injection I as <-; reflexivity|discriminate I|destruct (NO _ _ I)].
    + intros ->. left. reflexivity.
  - injection H as Hn Hw. rewrite <- Hn.
    set (w2 := add_triple (add_triple w1 (TBnode k) rdf_type (TIri sh_report_class)) (TBnode k) sh_conforms (to_term (TLit lit_false))).
    assert (R2 : ready w2).
    { intros m p o [I|[I|I]]; [injection I as <- <- <-; cbn; lia|injection I as <- <- <-; cbn; lia|]. apply (ex_ready _ _ _ E1) in I. exact I. }
    destruct (results_written (fun l => l) (fun l => Permutation_refl l) eq to_term (fun t => Some t) (fun i => eq_refl) (r :: rs) k w2 R2) as (E3 & ms & Len & ND & Fr & Tn & Rd); [cbn; lia|].
    intro x. assert (Hw' : w' = results_to_rdf to_term (r :: rs) (TBnode k) w2) by (symmetry; exact Hw). rewrite Hw', Tn. cbn [w2 add_triple w_triples In]. split.
    + intros [[I|[I|I]]|[I _]]; [injection I as <-; reflexivity|discriminate I|destruct (NO _ _ I)|discriminate I].
    + intros ->. left. left. reflexivity.
Qed.
Print Assumptions C55_conforms.
Definition reads_back (r : result) (b : report) : Prop := forall ord, any_order ord -> exists N, forall fuel f, N <= fuel -> exists f',
  let (n, w) := report_to_rdf (fun t => t) (just [r]) (mkWriter [] 0) in parse_report ord (w_triples w) Some fuel n None f = (Ok b, f').
Ltac read_all ord O := repeat (lazy -[path_parser]; first [rewrite (ord_one ord O)|rewrite (ord_none ord O)]); lazy -[path_parser].
Theorem C55_details_refuted : exists r b, reads_back r b /\ report_eqb term_eqb (just [r]) b = false /\ r_path r = None /\ r_sev r = Violation.
Proof.
  exists (mkResult (TIri 101) (TIri 100) Violation None None None (Some [TIri 102]) []), (just [bare (TIri 101) Violation]).
  split; [|repeat split; reflexivity]. intros ord O. exists 0. intros fuel f _. eexists. cbn [report_to_rdf just results]. read_all ord O. reflexivity.
Qed.
Print Assumptions C55_details_refuted.
Theorem C55_sequence_refuted : exists r b, reads_back r b /\ report_eqb term_eqb (just [r]) b = false /\ r_details r = None /\ r_sev r = Violation.
Proof.
  exists (mkResult (TIri 101) (TIri 100) Violation (Some (PSeq [])) None None None []), (just [mkResult (TIri 101) (TIri 100) Violation (Some (PPred rdf_nil)) None None None []]).
  split; [|repeat split; reflexivity]. intros ord O. exists 1. intros [|fuel] f L; [lia|]. eexists. cbn [report_to_rdf just results]. read_all ord O. cbn [path_parser]. reflexivity.
Qed.
Print Assumptions C55_sequence_refuted.
Theorem C55_severity_refuted : exists r b, reads_back r b /\ report_eqb term_eqb (just [r]) b = false /\ r_details r = None /\ r_path r = None.
Proof.
  exists (bare (TIri 101) (Generic sh_info)), (just [bare (TIri 101) Info]).
  split; [|repeat split; reflexivity]. intros ord O. exists 0. intros fuel f _. eexists. cbn [report_to_rdf just results]. read_all ord O. reflexivity.
Qed.
Print Assumptions C55_severity_refuted.
Theorem C55_message_refuted : exists r b, reads_back r b /\ r_msg r <> [] /\ forall r', In r' (results b) -> r_msg r' = [].
Proof.
  exists (mkResult (TIri 101) (TIri 100) Violation None None None None [7%N]), (just [bare (TIri 101) Violation]).
  split; [|split; [discriminate|intros r' [<-|[]]; reflexivity]]. intros ord O. exists 0. intros fuel f _. eexists. cbn [report_to_rdf just results]. read_all ord O. reflexivity.
Qed.
Print Assumptions C55_message_refuted.
(** a blank node of the data graph can be the node of the report, or of a result *)
Theorem C55_capture_refuted : exists r r' w w', ready w /\ w_triples w = [] /\
  report_to_rdf (fun t => t) (just [r; r']) w = (r_focus r, w') /\ In (r_focus r, sh_result, r_focus r') (w_triples w') /\ In (r_focus r', sh_focus_node, r_focus r) (w_triples w').
Proof.
  exists (bare (TBnode 1) Violation), (bare (TBnode 2) Violation), (mkWriter [] 0). eexists. split; [intros n p o []|]. split; [reflexivity|]. split; [reflexivity|]. cbn. tauto.
Qed.
Print Assumptions C55_capture_refuted.
Example C55_met : Forall (writable eq (fun t => t) Some) [mkResult (TBnode 7) (TIri 100) (Generic 30) (Some (PAlt [PSeq [PPred 40; PInv (PPred 41)]; PStar (POpt (PPred 42)); PAlt []])) (Some (TLit 5)) (Some (TIri 3)) None [1%N]] /\ ready (mkWriter [] 0).
Proof.
  split; [|intros n p o []]. repeat constructor; cbn; try (eexists; split; reflexivity); try discriminate.
  unfold sh_trace, sh_debug, sh_info, sh_warning, sh_violation. intuition discriminate.
Qed.

(** ** C56. Reading a path from a graph gives the path that the graph encodes. *)
(** Full statement: every path that [encodes] relates to the node, and no other, for every graph. *)
Theorem C56_reads_partial ord g t p : any_order ord -> spells g t p ->
  encodes g t p /\ exists n, forall fuel f, n <= fuel -> exists f', path_parser ord g fuel t f = (Ok p, f').
Proof.
  intros O S. split; [|exact (spells_reads ord g O p t S)]. revert t S.
  assert (C : forall n l, chain g n l -> rdf_list g n l).
  { intros n l H. induction H as [|n x r l N E F R H IH]; [constructor|]. apply list_cons with r; [apply F; reflexivity|apply R; reflexivity|exact IH]. }
  induction p as [i|ps IH|ps IH|p IH|p IH|p IH|p IH] using path_ind'; intros t S; inversion S as [|b ts ps' H1 H2|b l ts ps' H0 H1 H2|b t' q H1 H2|b t' q H1 H2|b t' q H1 H2|b t' q H1 H2]; subst.
  - constructor.
  - apply en_alt with l ts; [apply H0; reflexivity|apply C, H1|]. clear - IH H2. induction H2; [constructor|]. inversion IH; subst. constructor; auto.
  - apply en_seq with ts; [apply C, H1|]. clear - IH H2. induction H2; [constructor|]. inversion IH; subst. constructor; auto.
  - apply en_inv with t'; [apply H1; reflexivity|apply IH, H2].
  - apply en_star with t'; [apply H1; reflexivity|apply IH, H2].
  - apply en_plus with t'; [apply H1; reflexivity|apply IH, H2].
  - apply en_opt with t'; [apply H1; reflexivity|apply IH, H2].
Qed.
Print Assumptions C56_reads_partial.
(** every path that has no empty sequence can be written so that it is read *)
Theorem C56_writes ord p w t w' : any_order ord -> ready w -> no_empty_sequence p -> path_to_rdf p w = (t, w') ->
  exists n, forall fuel f, n <= fuel -> exists f', path_parser ord (w_triples w') fuel t f = (Ok p, f').
Proof.
  intros O R NE H. destruct (path_written p w R) as [E S]. rewrite H in *. cbn [fst snd] in *. apply (spells_reads ord (w_triples w') O p t).
  apply S; [exact NE|]. intros k q o _ _. reflexivity.
Qed.
Print Assumptions C56_writes.
(** lists are walked to their end in every graph *)
Theorem C56_lists_end ord g f : any_order ord -> fst (list_parser ord g (S (length g)) f) <> OutOfFuel.
Proof.
  intro O. unfold list_parser, pbind, get_focus. apply parse_list_ends; [exact O|constructor; [intros []|constructor]|intros x []|cbn; lia|discriminate].
Qed.
Print Assumptions C56_lists_end.
(** reading a path does not end when the path contains itself *)
Theorem C56_ends_refuted : exists g t, rdf_graph g /\ forall ord fuel f, any_order ord -> fst (path_parser ord g fuel t f) = OutOfFuel.
Proof.
  exists [(TBnode 1, sh_inverse, TBnode 1)], (TBnode 1). split; [intros s p o [I|[]]; injection I as <- _ _; exact Logic.I|].
  intros ord fuel f O. revert f. induction fuel as [|fuel IH]; intro f; [reflexivity|]. cbn [path_parser]. unfold pbind at 1, set_focus.
  destruct fuel as [|fuel]; [reflexivity|]. unfold porelse at 1. unfold pbind at 1. unfold pbind at 1.
  rewrite (list_parser_none ord _ O (TBnode 1) fuel eq_refl); [|discriminate|intros x [I|[]]; discriminate I].
  assert (X : forall q, In q [sh_alternative; sh_zero_or_more; sh_one_or_more; sh_zero_or_one] -> single_value ord [(TBnode 1, sh_inverse, TBnode 1)] q (TBnode 1) = (Err, TBnode 1)).
  { intros q J. apply (single_none ord _ O); [reflexivity|]. intros x [I|[]]. injection I as <- _. cbn in J. unfold sh_alternative, sh_zero_or_more, sh_one_or_more, sh_zero_or_one in J. intuition discriminate. }
  do 4 (unfold porelse at 1; unfold pbind at 1; rewrite X by (cbn; tauto)).
  unfold porelse at 1. unfold pbind at 1. rewrite (single_only ord _ O (TBnode 1) sh_inverse (TBnode 1) eq_refl).
  - unfold pbind at 1. specialize (IH (TBnode 1)). destruct (path_parser ord _ (S fuel) (TBnode 1) (TBnode 1)) as [r f']. cbn in IH. subst r. reflexivity.
  - intro x. cbn. split; [intros [I|[]]; congruence|intros ->; auto].
Qed.
Print Assumptions C56_ends_refuted.
(** a node that encodes no path can be read as one: the attempt to read a list leaves the focus on the cell
    where the list breaks off, and the next attempts start there *)
Theorem C56_sound_refuted : exists g t p, rdf_graph g /\ (forall q, ~ encodes g t q) /\
  forall ord, any_order ord -> exists n, forall fuel f, n <= fuel -> exists f', path_parser ord g fuel t f = (Ok p, f').
Proof.
  exists [(TBnode 1, rdf_first, TIri 40); (TBnode 1, rdf_rest, TBnode 2); (TBnode 2, sh_inverse, TIri 41)], (TBnode 1), (PInv (PPred 41)). split; [|split].
  - intros s p o I. cbn in I. destruct I as [I|[I|[I|[]]]]; injection I as <- _ _; exact Logic.I.
  - intros q H. inversion H as [|b ts ps A B|b l ts ps A B C|b t q' A B|b t q' A B|b t q' A B|b t q' A B]; subst.
    + inversion A as [|n x r l A1 A2 A3]; subst. destruct A2 as [I|[I|[I|[]]]]; try discriminate I. injection I as <-.
      inversion A3 as [|n' x' r' l' B1 B2 B3]; subst. destruct B1 as [I|[I|[I|[]]]]; discriminate I.
    + destruct A as [I|[I|[I|[]]]]; discriminate I.
    + destruct A as [I|[I|[I|[]]]]; discriminate I.
    + destruct A as [I|[I|[I|[]]]]; discriminate I.
    + destruct A as [I|[I|[I|[]]]]; discriminate I.
    + destruct A as [I|[I|[I|[]]]]; discriminate I.
  - intros ord O. exists 3. intros [|[|[|fuel]]] f L; try lia. eexists.
    set (g := [(TBnode 1, rdf_first, TIri 40); (TBnode 1, rdf_rest, TBnode 2); (TBnode 2, sh_inverse, TIri 41)]).
    assert (F : forall p o, In (TBnode 1, p, o) g <-> (p = rdf_first /\ o = TIri 40) \/ (p = rdf_rest /\ o = TBnode 2)) by (intros p o; cbn; intuition congruence).
    assert (G : forall p o, In (TBnode 2, p, o) g <-> p = sh_inverse /\ o = TIri 41) by (intros p o; cbn; intuition congruence).
    clearbody g. assert (X : forall q, q <> sh_inverse -> single_value ord g q (TBnode 2) = (Err, TBnode 2)).
    { intros q D. apply (single_none ord g O); [reflexivity|]. intros x I. apply G in I. tauto. }
    assert (LN : list_parser ord g (S (S fuel)) (TBnode 1) = (Err, TBnode 2)).
    { unfold list_parser, pbind, get_focus. cbn [parse_list]. unfold pbind at 1, get_focus. cbn [term_eqb]. unfold pbind at 1.
      rewrite (single_only ord g O (TBnode 1) rdf_first (TIri 40) eq_refl) by (intro x; rewrite F; unfold rdf_first, rdf_rest; intuition congruence).
      unfold pbind at 1. rewrite (single_only ord g O (TBnode 1) rdf_rest (TBnode 2) eq_refl) by (intro x; rewrite F; unfold rdf_first, rdf_rest; intuition congruence).
      change (tmem (TBnode 2) [TBnode 1]) with false. cbv iota beta. unfold pbind at 1, set_focus. unfold pbind. cbn [term_eqb]. rewrite X by discriminate. reflexivity. }
    remember (S (S fuel)) as fuel1 eqn:Ef. cbn [path_parser]. unfold pbind at 1, set_focus at 1. unfold porelse at 1. unfold pbind at 1. unfold pbind at 1. rewrite LN.
    do 4 (unfold porelse at 1; unfold pbind at 1; rewrite X by discriminate). unfold porelse at 1. unfold pbind at 1.
    rewrite (single_only ord g O (TBnode 2) sh_inverse (TIri 41) eq_refl) by (intro x; rewrite G; intuition congruence).
    subst fuel1. cbn [path_parser]. reflexivity.
Qed.
Print Assumptions C56_sound_refuted.
Example C56_met : spells [(TBnode 1, rdf_first, TIri 40); (TBnode 1, rdf_rest, TBnode 2); (TBnode 2, rdf_first, TBnode 3); (TBnode 2, rdf_rest, TIri rdf_nil); (TBnode 3, sh_inverse, TIri 41)]
  (TBnode 1) (PSeq [PPred 40; PInv (PPred 41)]).
Proof.
  apply sp_seq with [TIri 40; TBnode 3].
  - apply chain_cons with (TBnode 2); [discriminate|reflexivity| | |]; try (intro x; cbn; unfold rdf_first, rdf_rest, sh_inverse; intuition congruence).
    apply chain_cons with (TIri rdf_nil); [discriminate|reflexivity| | |constructor]; intro x; cbn; unfold rdf_first, rdf_rest, sh_inverse; intuition congruence.
  - constructor; [constructor|]. constructor; [|constructor]. apply sp_inv with (TIri 41); [|constructor]. split.
    + intro x. cbn. unfold rdf_first, rdf_rest, sh_inverse. intuition congruence.
    + intros q I D x J. cbn in J. intuition congruence.
Qed.
