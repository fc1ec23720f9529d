(** Lemmas about reports, and the reading and writing of paths. *)
From Coq Require Import List Bool NArith Permutation Lia Arith.
Import ListNotations.
From Verif Require Import PathModel PathSpec PathLemmas ReportModel ReportSpec.

Lemma term_eqb_iff a b : term_eqb a b = true <-> a = b.
Proof. destruct (term_eqb_spec a b); split; congruence. Qed.

(** ** Equality *)
Lemma path_eqb_refl p : path_eqb p p = true.
Proof.
  induction p as [i|ps IH|ps IH|q IH|q IH|q IH|q IH] using path_ind'; cbn [path_eqb]; auto using N.eqb_refl.
  - induction IH as [|x l H F IHF]; [reflexivity|]. rewrite H. exact IHF.
  - induction IH as [|x l H F IHF]; [reflexivity|]. rewrite H. exact IHF.
Qed.
Lemma path_eqb_eq p : forall q, path_eqb p q = true -> p = q.
Proof.
  induction p as [i|ps IH|ps IH|p IH|p IH|p IH|p IH] using path_ind'; intros [j|qs|qs|q|q|q|q] H; cbn [path_eqb] in H; try discriminate;
    try (f_equal; apply IH, H).
  - f_equal. apply N.eqb_eq, H.
  - f_equal. revert qs H. induction IH as [|x l E F IHF]; intros [|y qs] H; try discriminate; [reflexivity|].
    apply andb_true_iff in H. destruct H as [H1 H2]. f_equal; [apply E, H1|apply IHF, H2].
  - f_equal. revert qs H. induction IH as [|x l E F IHF]; intros [|y qs] H; try discriminate; [reflexivity|].
    apply andb_true_iff in H. destruct H as [H1 H2]. f_equal; [apply E, H1|apply IHF, H2].
Qed.
Lemma severity_eqb_eq a b : severity_eqb a b = true <-> a = b.
Proof.
  destruct a, b; cbn [severity_eqb]; split; intro H; try discriminate; try reflexivity.
  - apply N.eqb_eq in H. congruence.
  - injection H as ->. apply N.eqb_refl.
Qed.

Section Equality.
  Variable oeqb : term -> term -> bool.
  Variable same : term -> term -> Prop.
  Hypothesis decides : forall a b, oeqb a b = true <-> same a b.
  Hypothesis same_refl : forall a, same a a.
  Hypothesis same_sym : forall a b, same a b -> same b a.
  Hypothesis same_trans : forall a b c, same a b -> same b c -> same a c.

  Lemma list_eqb_iff l : forall l', list_eqb oeqb l l' = true <-> Forall2 same l l'.
  Proof.
    induction l as [|x l IH]; intros [|y l']; cbn [list_eqb]; split; intro H; try discriminate; try (inversion H; fail); auto.
    - apply andb_true_iff in H. destruct H as [A B]. constructor; [apply decides, A|apply IH, B].
    - inversion H; subst. apply andb_true_iff. split; [apply decides; assumption|apply IH; assumption].
  Qed.
  Lemma option_eqb_iff {A} (eqb : A -> A -> bool) (R : A -> A -> Prop) : (forall a b, eqb a b = true <-> R a b) ->
    forall a b, option_eqb eqb a b = true <-> same_option R a b.
  Proof. intros E [a|] [b|]; cbn; try apply E; split; intro; try discriminate; try contradiction; auto. Qed.
  Lemma result_eqb_iff a b : result_eqb oeqb a b = true <-> alike same a b.
  Proof.
    unfold result_eqb, alike. rewrite !andb_true_iff, !decides, severity_eqb_eq.
    rewrite (option_eqb_iff path_eqb eq), !(option_eqb_iff oeqb same), (option_eqb_iff (list_eqb oeqb) (Forall2 same)); auto using list_eqb_iff.
    - assert (E : same_option eq (r_path a) (r_path b) <-> r_path a = r_path b).
      { destruct (r_path a), (r_path b); cbn; split; intro H; try discriminate; try contradiction; auto; congruence. }
      rewrite E. tauto.
    - intros p q. split; [apply path_eqb_eq|intros ->; apply path_eqb_refl].
  Qed.
  Lemma option_sym {A} (R : A -> A -> Prop) : (forall a b, R a b -> R b a) -> forall a b, same_option R a b -> same_option R b a.
  Proof. intros H [a|] [b|]; cbn; auto. Qed.
  Lemma option_trans {A} (R : A -> A -> Prop) : (forall a b c, R a b -> R b c -> R a c) ->
    forall a b c, same_option R a b -> same_option R b c -> same_option R a c.
  Proof. intros H [a|] [b|] [c|]; cbn; try tauto. apply H. Qed.
  Lemma option_refl {A} (R : A -> A -> Prop) : (forall a, R a a) -> forall a, same_option R a a.
  Proof. intros H [a|]; cbn; auto. Qed.
  Lemma forall2_refl {A} (R : A -> A -> Prop) : (forall a, R a a) -> forall l, Forall2 R l l.
  Proof. intros H l. induction l; constructor; auto. Qed.
  Lemma forall2_sym {A} (R : A -> A -> Prop) : (forall a b, R a b -> R b a) -> forall l m, Forall2 R l m -> Forall2 R m l.
  Proof. intros H l m F. induction F; constructor; auto. Qed.
  Lemma forall2_trans {A} (R : A -> A -> Prop) : (forall a b c, R a b -> R b c -> R a c) -> forall l m k, Forall2 R l m -> Forall2 R m k -> Forall2 R l k.
  Proof. intros H l m k F. revert k. induction F; intros k G; inversion G; subst; constructor; eauto. Qed.
  Lemma alike_refl a : alike same a a.
  Proof.
    unfold alike. split; [auto|]. split; [auto|]. split; [auto|]. split; [auto|]. split; [|split]; apply option_refl; auto. apply forall2_refl, same_refl.
  Qed.
  Lemma alike_sym a b : alike same a b -> alike same b a.
  Proof.
    unfold alike. intros (A & B & C & D & E & F & G). split; [auto|]. split; [auto|]. split; [auto|]. split; [auto|].
    split; [|split]; (eapply option_sym; [|eassumption]); auto. intros; eapply forall2_sym; eauto.
  Qed.
  Lemma alike_trans a b c : alike same a b -> alike same b c -> alike same a c.
  Proof.
    unfold alike. intros (A & B & C & D & E & F & G) (A' & B' & C' & D' & E' & F' & G'). split; [eauto|]. split; [eauto|]. split; [congruence|]. split; [congruence|].
    split; [|split]; (eapply option_trans; [|eassumption|eassumption]); eauto. intros; eapply forall2_trans; eauto.
  Qed.

  Lemma report_eqb_iff a b : report_eqb oeqb a b = true <->
    length (results a) = length (results b) /\ forall r, In r (results a) -> exists s, In s (results b) /\ alike same s r.
  Proof.
    unfold report_eqb. rewrite andb_true_iff, Nat.eqb_eq, forallb_forall. apply and_iff_compat_l. split; intros H r I.
    - apply H in I. apply existsb_exists in I. destruct I as (s & I & E). exists s. split; [exact I|]. apply result_eqb_iff, E.
    - apply existsb_exists. destruct (H r I) as (s & J & E). exists s. split; [exact J|]. apply result_eqb_iff, E.
  Qed.
  Lemma same_results_eqb a b : same_results same (results a) (results b) -> report_eqb oeqb a b = true.
  Proof.
    intros (m & P & F). apply report_eqb_iff. split.
    - rewrite <- (Permutation_length P). clear P. induction F; cbn; congruence.
    - intros r I. assert (X : exists s, In s m /\ alike same s r).
      { clear P. induction F as [|x y l l' A F IH]; [destruct I|]. destruct I as [->|I]; [exists y; split; [left; reflexivity|apply alike_sym, A]|].
        destruct (IH I) as (s & J & E). exists s. split; [right; exact J|exact E]. }
      destruct X as (s & J & E). exists s. split; [|exact E]. apply (Permutation_in _ P J).
  Qed.
  (** among distinct results inclusion and length are enough *)
  Lemma distinct_same l : forall l', distinct same l -> length l = length l' -> (forall r, In r l -> exists s, In s l' /\ alike same s r) ->
    same_results same l l'.
  Proof.
    induction l as [|r l IH]; intros l' D L H.
    - destruct l'; [|discriminate]. exists []. split; constructor.
    - inversion D as [|? ? Dr D']; subst. destruct (H r (or_introl eq_refl)) as (s & I & E). destruct (in_split _ _ I) as (l1 & l2 & ->).
      destruct (IH (l1 ++ l2) D') as (m & P & F).
      + rewrite app_length in *. cbn in L. lia.
      + intros r' J. destruct (H r' (or_intror J)) as (s' & I' & E'). exists s'. split; [|exact E'].
        apply in_app_iff in I'. apply in_app_iff. destruct I' as [I'|[->|I']]; [left; exact I'| |right; exact I'].
        exfalso. rewrite Forall_forall in Dr. apply (Dr r' J). apply alike_trans with s'; [apply alike_sym, E|exact E'].
      + exists (s :: m). split; [|constructor; [apply alike_sym, E|exact F]].
        rewrite P. apply Permutation_cons_app. reflexivity.
  Qed.
  Lemma same_results_sym l l' : same_results same l l' -> same_results same l' l.
  Proof.
    intros (m & P & F). assert (Q : Permutation l' m) by (symmetry; exact P). clear P. revert l F.
    induction Q as [|x a b Q IH|x y a|a b c Q1 IH1 Q2 IH2]; intros l F.
    - inversion F; subst. exists []. split; constructor.
    - inversion F as [|y ? l0 ? A F0]; subst. destruct (IH _ F0) as (m & P & G). exists (y :: m). split; [constructor; exact P|constructor; [apply alike_sym, A|exact G]].
    - inversion F as [|u ? l0 ? A F0]; subst. inversion F0 as [|v ? l1 ? B F1]; subst. exists (v :: u :: l1). split; [constructor|].
      constructor; [apply alike_sym, B|]. constructor; [apply alike_sym, A|]. revert F1. apply forall2_sym. exact alike_sym.
    - destruct (IH2 _ F) as (m & P & G). assert (Gs : Forall2 (alike same) m b) by (revert G; apply forall2_sym; exact alike_sym).
      destruct (IH1 _ Gs) as (m' & P' & G'). exists m'. split; [etransitivity; eassumption|exact G'].
  Qed.
End Equality.

(** ** Reading *)
Section Read.
  Variable ord : list term -> list term.
  Variable g : graph.
  Hypothesis any : any_order ord.

  Lemma objects_for_in s p l x : objects_for g s p = Ok l -> (In x l <-> In (s, p, x) g) /\ NoDup l.
  Proof.
    unfold objects_for. destruct (term_as_subject s) as [s'|] eqn:E; [|discriminate]. assert (s' = s) by (destruct s; cbn in E; congruence). subst s'.
    intro H. injection H as <-. split; [|apply tset_nodup]. rewrite tset_in, in_map_iff. split.
    - intros ([[a b] c] & K & I). cbn in K. subst c. apply filter_In in I. destruct I as [I T]. cbn in T. apply andb_true_iff in T. destruct T as [T U].
      apply term_eqb_iff in T. apply N.eqb_eq in U. subst. exact I.
    - intro I. exists (s, p, x). split; [reflexivity|]. apply filter_In. split; [exact I|]. cbn. rewrite (proj2 (term_eqb_iff s s) eq_refl), N.eqb_refl. reflexivity.
  Qed.
  Lemma objects_for_ok s p : term_as_subject s = Some s -> exists l, objects_for g s p = Ok l.
  Proof. intro E. unfold objects_for. rewrite E. eexists. reflexivity. Qed.
  Lemma objects_only s p o : term_as_subject s = Some s -> only g s p o -> objects_for g s p = Ok [o].
  Proof.
    intros E H. destruct (objects_for_ok s p E) as (l & L). rewrite L. f_equal.
    assert (M : forall x, In x l <-> x = o) by (intro x; rewrite (proj1 (objects_for_in s p l x L)); apply H).
    pose proof (proj2 (objects_for_in s p l o L)) as N. destruct l as [|a [|b l]].
    - destruct (proj2 (M o) eq_refl).
    - rewrite (proj1 (M a) (or_introl eq_refl)). reflexivity.
    - pose proof (proj1 (M a) (or_introl eq_refl)). pose proof (proj1 (M b) (or_intror (or_introl eq_refl))). subst. inversion N as [|? ? X]; subst. destruct X. left. reflexivity.
  Qed.
  Lemma objects_none s p : term_as_subject s = Some s -> none g s p -> objects_for g s p = Ok [].
  Proof.
    intros E H. destruct (objects_for_ok s p E) as (l & L). rewrite L. f_equal. destruct l as [|a l]; [reflexivity|].
    destruct (H a). apply (proj1 (proj1 (objects_for_in s p _ a L))). left. reflexivity.
  Qed.
  Lemma ord_one o : ord [o] = [o].
  Proof. apply Permutation_length_1_inv. symmetry. apply any. Qed.
  Lemma ord_none : ord [] = [].
  Proof. apply Permutation_nil. symmetry. apply any. Qed.
  Lemma single_only s p o : term_as_subject s = Some s -> only g s p o -> single_value ord g p s = (Ok o, s).
  Proof. intros E H. unfold single_value. rewrite (objects_only s p o E H), ord_one. reflexivity. Qed.
  Lemma single_none s p : term_as_subject s = Some s -> none g s p -> single_value ord g p s = (Err, s).
  Proof. intros E H. unfold single_value. rewrite (objects_none s p E H), ord_none. reflexivity. Qed.

  Lemma only_det s p o o' : only g s p o -> only g s p o' -> o = o'.
  Proof. intros A B. apply B, A. reflexivity. Qed.
  Lemma chain_det n l : chain g n l -> forall l', chain g n l' -> l = l'.
  Proof.
    intro H. induction H as [|n x r l N E F R C IH]; intros l' H'; inversion H' as [|n' x' r' k N' E' F' R' C']; subst; try congruence.
    f_equal; [eapply only_det; eassumption|]. apply IH. rewrite (only_det _ _ _ _ R R'). exact C'.
  Qed.
  Lemma parse_chain n l : chain g n l -> forall fuel visited, length l < fuel ->
    (forall v, In v visited -> exists k, chain g v k /\ length l <= length k) -> parse_list ord g fuel visited n = (Ok l, TIri rdf_nil).
  Proof.
    intro H. induction H as [|n x r l N E F R C IH]; intros [|fuel] visited L V; try (cbn in L; lia).
    - reflexivity.
    - cbn [parse_list]. unfold pbind at 1, get_focus. destruct (term_eqb n (TIri rdf_nil)) eqn:T; [apply term_eqb_iff in T; contradiction|].
      unfold pbind at 1. rewrite (single_only n rdf_first x E F). unfold pbind at 1. rewrite (single_only n rdf_rest r E R).
      assert (M : tmem r visited = false).
      { destruct (tmem r visited) eqn:M; [|reflexivity]. apply existsb_exists in M. destruct M as (v & I & K). apply term_eqb_iff in K. subst v.
        destruct (V r I) as (k & Ck & Lk). rewrite (chain_det _ _ Ck _ C) in Lk. cbn in Lk. lia. }
      rewrite M. unfold pbind at 1, set_focus. unfold pbind. rewrite (IH fuel (visited ++ [r])).
      + reflexivity.
      + cbn in L. lia.
      + intros v I. apply in_app_iff in I. destruct I as [I|[<-|[]]].
        * destruct (V v I) as (k & Ck & Lk). exists k. split; [exact Ck|]. cbn in Lk. lia.
        * exists l. split; [exact C|lia].
  Qed.
  Lemma list_parser_chain n l fuel : chain g n l -> length l < fuel -> list_parser ord g fuel n = (Ok l, TIri rdf_nil).
  Proof.
    intros C L. unfold list_parser, pbind, get_focus. apply parse_chain; [exact C|exact L|]. intros v [<-|[]]. exists l. split; [exact C|lia].
  Qed.
  Lemma list_parser_none n fuel : term_as_subject n = Some n -> n <> TIri rdf_nil -> none g n rdf_first -> list_parser ord g (S fuel) n = (Err, n).
  Proof.
    intros E N F. unfold list_parser, pbind, get_focus. cbn [parse_list]. unfold pbind at 1, get_focus.
    destruct (term_eqb n (TIri rdf_nil)) eqn:T; [apply term_eqb_iff in T; contradiction|]. unfold pbind at 1. rewrite (single_none n rdf_first E F). reflexivity.
  Qed.

  Definition reads (t : term) (p : path) : Prop := exists n, forall fuel f, n <= fuel -> exists f', path_parser ord g fuel t f = (Ok p, f').
  Lemma pmap_reads ts ps : Forall2 reads ts ps -> exists n, forall fuel f, n <= fuel -> exists f', pmap (path_parser ord g fuel) ts f = (Ok ps, f').
  Proof.
    intro F. induction F as [|t p ts ps [n H] F [m IH]].
    - exists 0. intros fuel f _. exists f. reflexivity.
    - exists (n + m). intros fuel f L. destruct (H fuel f) as (f1 & E1); [lia|]. destruct (IH fuel f1) as (f2 & E2); [lia|].
      exists f2. cbn [pmap]. unfold pbind at 1. rewrite E1. unfold pbind. rewrite E2. reflexivity.
  Qed.
  Lemma spells_list ps ts : Forall (fun p => forall t, spells g t p -> reads t p) ps -> Forall2 (spells g) ts ps -> Forall2 reads ts ps.
  Proof. intros A F. induction F; [constructor|]. inversion A; subst. constructor; auto. Qed.
  (** a well formed path is read *)
  Lemma spells_reads p : forall t, spells g t p -> reads t p.
  Proof.
    induction p as [i|ps IH|ps IH|p IH|p IH|p IH|p IH] using path_ind'; intros t H; inversion H; subst.
    - exists 1. intros [|fuel] f L; [lia|]. exists (TIri i). reflexivity.
    - destruct (pmap_reads _ _ (spells_list _ _ IH H4)) as (n & Hn). exists (S (S (n + length ts))). intros [|[|fuel]] f L; try lia.
      remember (S fuel) as fuel1 eqn:E1. cbn [path_parser]. unfold pbind at 1, set_focus at 1. cbn [fst snd].
      destruct H1 as [O1 O2].
      assert (LN : list_parser ord g fuel1 (TBnode b) = (Err, TBnode b)).
      { subst fuel1. apply list_parser_none; [reflexivity|discriminate|]. apply O2; [cbn; tauto|discriminate]. }
      unfold porelse at 1. unfold pbind at 1. unfold pbind at 1. rewrite LN.
      unfold porelse at 1. unfold pbind at 1. rewrite (single_only (TBnode b) sh_alternative l eq_refl O1).
      unfold pbind at 1, set_focus at 1. unfold pbind at 1. unfold pbind at 1. rewrite (list_parser_chain l ts fuel1 H2) by lia.
      destruct (Hn fuel1 (TIri rdf_nil)) as (f' & Ef); [lia|]. rewrite Ef. exists f'. reflexivity.
    - destruct (pmap_reads _ _ (spells_list _ _ IH H3)) as (n & Hn). exists (S (S (n + length ts))). intros [|fuel1] f L; try lia.
      cbn [path_parser]. unfold pbind at 1, set_focus at 1. unfold porelse at 1. unfold pbind at 1. unfold pbind at 1.
      rewrite (list_parser_chain (TBnode b) ts fuel1 H1) by lia.
      destruct (Hn fuel1 (TIri rdf_nil)) as (f' & Ef); [lia|]. rewrite Ef. exists f'. reflexivity.
    - destruct (IH _ H3) as (n & Hn). exists (S (S n)). intros [|[|fuel]] f L; try lia.
      remember (S fuel) as fuel1 eqn:E1. cbn [path_parser]. unfold pbind at 1, set_focus at 1.
      destruct H1 as [O1 O2].
      assert (LN : list_parser ord g fuel1 (TBnode b) = (Err, TBnode b)).
      { subst fuel1. apply list_parser_none; [reflexivity|discriminate|]. apply O2; [cbn; tauto|discriminate]. }
      assert (X : forall q, In q [sh_alternative; sh_zero_or_more; sh_one_or_more; sh_zero_or_one] -> single_value ord g q (TBnode b) = (Err, TBnode b)).
      { intros q I. apply single_none; [reflexivity|]. apply O2; cbn in I |- *; intuition (subst; try discriminate; auto). }
      unfold porelse at 1. unfold pbind at 1. unfold pbind at 1. rewrite LN.
      do 4 (unfold porelse at 1; unfold pbind at 1; rewrite X by (cbn; tauto)).
      unfold porelse, pbind. rewrite (single_only (TBnode b) _ _ eq_refl O1).
      destruct (Hn fuel1 (TBnode b)) as (f' & Ef); [lia|]. rewrite Ef. exists f'. reflexivity.
    - destruct (IH _ H3) as (n & Hn). exists (S (S n)). intros [|[|fuel]] f L; try lia.
      remember (S fuel) as fuel1 eqn:E1. cbn [path_parser]. unfold pbind at 1, set_focus at 1.
      destruct H1 as [O1 O2].
      assert (LN : list_parser ord g fuel1 (TBnode b) = (Err, TBnode b)).
      { subst fuel1. apply list_parser_none; [reflexivity|discriminate|]. apply O2; [cbn; tauto|discriminate]. }
      assert (X : forall q, In q [sh_alternative] -> single_value ord g q (TBnode b) = (Err, TBnode b)).
      { intros q I. apply single_none; [reflexivity|]. apply O2; cbn in I |- *; intuition (subst; try discriminate; auto). }
      unfold porelse at 1. unfold pbind at 1. unfold pbind at 1. rewrite LN.
      do 1 (unfold porelse at 1; unfold pbind at 1; rewrite X by (cbn; tauto)).
      unfold porelse, pbind. rewrite (single_only (TBnode b) _ _ eq_refl O1).
      destruct (Hn fuel1 (TBnode b)) as (f' & Ef); [lia|]. rewrite Ef. exists f'. reflexivity.
    - destruct (IH _ H3) as (n & Hn). exists (S (S n)). intros [|[|fuel]] f L; try lia.
      remember (S fuel) as fuel1 eqn:E1. cbn [path_parser]. unfold pbind at 1, set_focus at 1.
      destruct H1 as [O1 O2].
      assert (LN : list_parser ord g fuel1 (TBnode b) = (Err, TBnode b)).
      { subst fuel1. apply list_parser_none; [reflexivity|discriminate|]. apply O2; [cbn; tauto|discriminate]. }
      assert (X : forall q, In q [sh_alternative; sh_zero_or_more] -> single_value ord g q (TBnode b) = (Err, TBnode b)).
      { intros q I. apply single_none; [reflexivity|]. apply O2; cbn in I |- *; intuition (subst; try discriminate; auto). }
      unfold porelse at 1. unfold pbind at 1. unfold pbind at 1. rewrite LN.
      do 2 (unfold porelse at 1; unfold pbind at 1; rewrite X by (cbn; tauto)).
      unfold porelse, pbind. rewrite (single_only (TBnode b) _ _ eq_refl O1).
      destruct (Hn fuel1 (TBnode b)) as (f' & Ef); [lia|]. rewrite Ef. exists f'. reflexivity.
    - destruct (IH _ H3) as (n & Hn). exists (S (S n)). intros [|[|fuel]] f L; try lia.
      remember (S fuel) as fuel1 eqn:E1. cbn [path_parser]. unfold pbind at 1, set_focus at 1.
      destruct H1 as [O1 O2].
      assert (LN : list_parser ord g fuel1 (TBnode b) = (Err, TBnode b)).
      { subst fuel1. apply list_parser_none; [reflexivity|discriminate|]. apply O2; [cbn; tauto|discriminate]. }
      assert (X : forall q, In q [sh_alternative; sh_zero_or_more; sh_one_or_more] -> single_value ord g q (TBnode b) = (Err, TBnode b)).
      { intros q I. apply single_none; [reflexivity|]. apply O2; cbn in I |- *; intuition (subst; try discriminate; auto). }
      unfold porelse at 1. unfold pbind at 1. unfold pbind at 1. rewrite LN.
      do 3 (unfold porelse at 1; unfold pbind at 1; rewrite X by (cbn; tauto)).
      unfold porelse, pbind. rewrite (single_only (TBnode b) _ _ eq_refl O1).
      destruct (Hn fuel1 (TBnode b)) as (f' & Ef); [lia|]. rewrite Ef. exists f'. reflexivity.
  Qed.

  (** the walk along a list ends: every step goes to a new object of the graph *)
  Lemma single_object p s o : single_value ord g p s = (Ok o, s) -> In o (map (fun t => snd t) g).
  Proof.
    unfold single_value. destruct (objects_for g s p) as [l| | |] eqn:L; try discriminate. destruct (ord l) as [|t k] eqn:O; [discriminate|].
    intro H. injection H as ->. apply in_map_iff. exists (s, p, o). split; [reflexivity|].
    apply (proj1 (proj1 (objects_for_in s p l o L))). apply (Permutation_in _ (any l)). rewrite O. left. reflexivity.
  Qed.
  Lemma single_focus p s r s' : single_value ord g p s = (r, s') -> s' = s /\ r <> OutOfFuel /\ r <> Panic.
  Proof.
    unfold single_value. destruct (objects_for g s p) as [l| | |]; [destruct (ord l)|..]; intro H; injection H as <- <-; repeat split; discriminate.
  Qed.
  Lemma parse_list_ends fuel : forall visited f, NoDup visited -> incl (tl visited) (map (fun t => snd t) g) -> length g + 2 <= fuel + length visited -> visited <> [] ->
    fst (parse_list ord g fuel visited f) <> OutOfFuel.
  Proof.
    induction fuel as [|fuel IH]; intros visited f N I L Z.
    - exfalso. destruct visited as [|v visited]; [contradiction|]. cbn in *. inversion N; subst. apply NoDup_incl_length in I; [|assumption].
      rewrite map_length in I. unfold graph, triple in *. lia.
    - cbn [parse_list]. unfold pbind at 1, get_focus. destruct (term_eqb f (TIri rdf_nil)); [discriminate|].
      unfold pbind at 1. destruct (single_value ord g rdf_first f) as [r s] eqn:E1. destruct (single_focus _ _ _ _ E1) as (-> & A & B).
      destruct r as [first| | |]; try discriminate; try congruence.
      unfold pbind at 1. destruct (single_value ord g rdf_rest f) as [r s] eqn:E2. destruct (single_focus _ _ _ _ E2) as (-> & A' & B').
      destruct r as [rest| | |]; try discriminate; try congruence. apply single_object in E2.
      destruct (tmem rest visited) eqn:M; [discriminate|].
      unfold pbind at 1, set_focus. unfold pbind.
      assert (X : fst (parse_list ord g fuel (visited ++ [rest]) rest) <> OutOfFuel).
      { apply IH.
        - apply (Permutation_NoDup (Permutation_cons_append visited rest)). constructor; [|exact N]. intro K. assert (tmem rest visited = true); [|congruence]. apply existsb_exists. exists rest. split; [exact K|]. apply term_eqb_iff. reflexivity.
        - destruct visited as [|v visited]; [contradiction|]. cbn in *. intros x K. apply in_app_iff in K. destruct K as [K|[<-|[]]]; auto.
        - rewrite app_length. cbn. lia.
        - destruct visited; discriminate. }
      destruct (parse_list ord g fuel (visited ++ [rest]) rest) as [[l| | |] f']; cbn in *; try discriminate. congruence.
  Qed.
End Read.
