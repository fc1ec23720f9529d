(* Lemmas about the conformance metrics. *)
From Coq Require Import List String Ascii Bool ZArith QArith Permutation Lia Lqa.
Import ListNotations.
From Verif Require Import SjModel CoModel CoSpec SqModel SqSpec SqLemmas GenModel GenSpec GenLemmas GenNames GenEntity GenGraph GenWhole CmModel CmSpec.
Open Scope string_scope.
Open Scope Z_scope.

Lemma mnode_eqb_eq a b : mnode_eqb a b = true <-> a = b.
Proof.
  destruct a as [s|s], b as [t|t]; cbn; rewrite ?String.eqb_eq; split; intro H; try discriminate; try (injection H as ->); try (subst; reflexivity); auto.
Qed.
Lemma key_eqb_eq a b : key_eqb a b = true <-> a = b.
Proof.
  destruct a as [a p], b as [b q]. unfold key_eqb. cbn. rewrite andb_true_iff, mnode_eqb_eq, String.eqb_eq. split; [intros [-> ->]; reflexivity|intro H; injection H as -> ->; auto].
Qed.
Section Maps.
Context {K V : Type} (eqb : K -> K -> bool).
Hypothesis eqb_eq : forall a b, eqb a b = true <-> a = b.
Lemma find_put k k' (v : V) m : find_at eqb k (put_at eqb k' v m) = if eqb k k' then Some v else find_at eqb k m.
Proof.
  induction m as [|[k2 v2] m IH]; cbn; [reflexivity|].
  destruct (eqb k' k2) eqn:E; cbn.
  - apply eqb_eq in E. subst k2. destruct (eqb k k'); reflexivity.
  - rewrite IH. destruct (eqb k k2) eqn:E2, (eqb k k') eqn:E3; try reflexivity. apply eqb_eq in E2, E3. subst. rewrite (proj2 (eqb_eq k2 k2) eq_refl) in E. discriminate.
Qed.
End Maps.

Section Lemmas.
Context {F : nums}.

Definition for_key (s : mnode) (p : string) (t : mtriple) : bool := mnode_eqb (m_s t) s && String.eqb (m_p t) p.

Lemma scan_snoc ts t : scan (ts ++ [t]) = step (scan ts) t.
Proof. unfold scan. rewrite fold_left_app. reflexivity. Qed.

Lemma scan_counts ts s p : p <> the_type ->
  match find_at key_eqb (s, p) (snd (scan ts)) with Some n => n | None => 0 end = Z.of_nat (List.length (filter (for_key s p) ts)).
Proof.
  intro N. induction ts as [|t ts IH] using rev_ind; [reflexivity|]. rewrite scan_snoc, filter_app, app_length. unfold step.
  destruct (String.eqb_spec (m_p t) rdf_type) as [E|E].
  - assert (X : for_key s p t = false). { unfold for_key. rewrite E. rewrite (proj2 (String.eqb_neq rdf_type p) ltac:(intro Q; apply N; symmetry; exact Q)). apply andb_false_r. }
    cbn [filter]. rewrite X. cbn [List.length]. rewrite Nat.add_0_r. destruct (m_o t) as [[c|c]|]; cbn [snd]; exact IH.
  - cbn [snd]. rewrite (find_put key_eqb key_eqb_eq). cbn [filter]. destruct (key_eqb (s, p) (m_s t, m_p t)) eqn:K.
    + apply key_eqb_eq in K. injection K as -> ->. unfold for_key. rewrite (proj2 (mnode_eqb_eq _ _) eq_refl), String.eqb_refl. cbn [andb List.length]. unfold for_key in IH. lia.
    + assert (X : for_key s p t = false).
      { destruct (for_key s p t) eqn:Y; [|reflexivity]. unfold for_key in Y. apply andb_true_iff in Y. destruct Y as [Y1 Y2]. apply mnode_eqb_eq in Y1. apply String.eqb_eq in Y2. subst.
        rewrite (proj2 (key_eqb_eq _ _) eq_refl) in K. discriminate. }
      rewrite X. cbn [List.length]. rewrite Nat.add_0_r. exact IH.
Qed.

Lemma scan_types ts s : match find_at mnode_eqb s (fst (scan ts)) with Some c => has_type ts s c | None => forall c, ~ has_type ts s c end.
Proof.
  unfold has_type. induction ts as [|t ts IH] using rev_ind; [intros c []|]. rewrite scan_snoc. unfold step.
  assert (Old : match find_at mnode_eqb s (fst (scan ts)) with
    | Some c => In {| m_s := s; m_p := the_type; m_o := MNode (MIri c) |} (ts ++ [t])
    | None => (forall c, t <> {| m_s := s; m_p := the_type; m_o := MNode (MIri c) |}) -> forall c, ~ In {| m_s := s; m_p := the_type; m_o := MNode (MIri c) |} (ts ++ [t]) end).
  { destruct (find_at mnode_eqb s (fst (scan ts))); [apply in_or_app; auto|]. intros H c I. apply in_app_or in I. destruct I as [I|[I|[]]]; [exact (IH c I)|exact (H c I)]. }
  destruct (String.eqb_spec (m_p t) rdf_type) as [E|E].
  - destruct (m_o t) as [[c|c]|v d] eqn:Eo; cbn [fst].
    + rewrite (find_put mnode_eqb mnode_eqb_eq). destruct (mnode_eqb s (m_s t)) eqn:K.
      * apply mnode_eqb_eq in K. apply in_or_app. right. left. destruct t as [ts' tp to]. cbn in *. subst. reflexivity.
      * destruct (find_at mnode_eqb s (fst (scan ts))); [exact Old|]. apply Old. intros c' ->. cbn in K. rewrite (proj2 (mnode_eqb_eq _ _) eq_refl) in K. discriminate.
    + destruct (find_at mnode_eqb s (fst (scan ts))); [exact Old|]. apply Old. intros c' ->. discriminate.
    + destruct (find_at mnode_eqb s (fst (scan ts))); [exact Old|]. apply Old. intros c' ->. discriminate.
  - cbn [fst]. destruct (find_at mnode_eqb s (fst (scan ts))); [exact Old|]. apply Old. intros c' ->. apply E. reflexivity.
Qed.
Lemma type_iff ts s c : one_type ts -> find_at mnode_eqb s (fst (scan ts)) = Some c <-> has_type ts s c.
Proof.
  intro O. pose proof (scan_types ts s) as H. split.
  - intro E. rewrite E in H. exact H.
  - intro T. destruct (find_at mnode_eqb s (fst (scan ts))) as [c'|]; [|destruct (H c T)]. rewrite (O s c c' T H). reflexivity.
Qed.

Lemma value_iff v o : value_matches_term v o = true <-> matches_value v o.
Proof.
  destruct v as [e|e dt|e], o as [[a|a]|a d]; cbn;
    try (split; [discriminate|first [discriminate | match goal with |- context [match ?x with _ => _ end] => destruct x end; [discriminate|intros [? ?]; discriminate]]]).
  - rewrite String.eqb_eq. split; [intros ->; reflexivity|congruence].
  - destruct (String.eqb_spec a e) as [->|N].
    + destruct dt as [dt|].
      * rewrite String.eqb_eq. split; [intros ->; reflexivity|congruence].
      * split; [eauto|reflexivity].
    + split; [discriminate|]. destruct dt as [dt|]; [congruence|intros [d' E]; congruence].
  - rewrite String.eqb_eq. split; [intros ->; reflexivity|congruence].
Qed.
Lemma compares_iff (cmp : f64 -> f64 -> bool) o v : compare_numeric o v cmp = true <-> compares (fun a b => cmp a b = true) o v.
Proof.
  unfold compare_numeric, compares. split.
  - destruct o as [n|s d]; cbn; [discriminate|]. destruct v as [e|e dt|e]; cbn; try (destruct (parse s); discriminate).
    destruct (parse s) eqn:P, (parse e) eqn:Q; try discriminate. intro H. repeat eexists; eauto.
  - intros (s & d & e & dt & a & b & -> & -> & P & Q & H). cbn. rewrite P, Q. exact H.
Qed.
Lemma evaluate_iff ts c o : one_type ts -> evaluate (fst (scan ts)) c o = true <-> satisfies ts c o.
Proof.
  intro O. destruct c; cbn [evaluate satisfies]; try apply compares_iff; try apply value_iff.
  - destruct o as [n|v d]; [split; [discriminate|intros [v E]; discriminate]|]. rewrite String.eqb_eq. split; [intros ->; eauto|intros [v' E]; congruence].
  - destruct o as [n|s' d]; [|split; [discriminate|intros (n & E & _); discriminate]]. split.
    + destruct (find_at mnode_eqb n (fst (scan ts))) as [c|] eqn:E; [|discriminate]. intro H. apply String.eqb_eq in H. subst c. exists n. split; [reflexivity|]. apply (type_iff ts n _ O). exact E.
    + intros (n' & E & T). injection E as <-. apply (type_iff ts n _ O) in T. rewrite T. apply String.eqb_refl.
  - destruct k, o as [[v|v]|v d]; cbn; intuition discriminate.
  - destruct o as [n|v d]; [split; [discriminate|intros (s' & d & m & E & _); discriminate]|]. split.
    + destruct (regex s) as [m|] eqn:R; [|discriminate]. intro H. exists v, d, m. auto.
    + intros (s' & d' & m & E & R & H). injection E as -> ->. rewrite R. exact H.
  - destruct o as [n'|v d]; [split; [discriminate|intros (s' & d & E & _); discriminate]|]. rewrite Z.leb_le. split; [eauto|]. intros (s' & d' & E & H). injection E as -> ->. exact H.
  - destruct o as [n'|v d]; [split; [discriminate|intros (s' & d & E & _); discriminate]|]. rewrite Z.leb_le. split; [eauto|]. intros (s' & d' & E & H). injection E as -> ->. exact H.
  - rewrite existsb_exists. split; intros (v & I & H); exists v; split; auto; apply value_iff; exact H.
Qed.

Lemma for_key_iff s p t : for_key s p t = true <-> m_s t = s /\ m_p t = p.
Proof. unfold for_key. rewrite andb_true_iff, mnode_eqb_eq, String.eqb_eq. reflexivity. Qed.
Lemma at_most_iff ts s p n : NoDup ts -> at_most ts s p n <-> Z.of_nat (List.length (filter (for_key s p) ts)) <= n.
Proof.
  intro N. split.
  - intro H. apply H; [apply NoDup_filter, N|]. intros t I. apply filter_In in I. destruct I as [I K]. apply for_key_iff in K. auto.
  - intros H l Nl I. assert ((List.length l <= List.length (filter (for_key s p) ts))%nat); [|lia]. apply NoDup_incl_length; [exact Nl|].
    intros t It. apply filter_In. destruct (I t It) as (J & K). split; [exact J|]. apply for_key_iff, K.
Qed.

Lemma lookup_iff {A} k (a : A) m : NoDup (List.map fst m) -> lookup k m = Some a <-> In (k, a) m.
Proof. intro N. split; [apply lookup_in|apply lookup_some, N]. Qed.
Lemma find_prop sh p n : NoDup (List.map u_iri (u_props sh)) -> find (fun p => String.eqb (u_iri p) n) (u_props sh) = Some p <-> In p (u_props sh) /\ u_iri p = n.
Proof.
  intro N. split.
  - intro E. apply find_some in E. destruct E as [I E]. apply String.eqb_eq in E. auto.
  - intros [I <-]. destruct (find (fun p' => String.eqb (u_iri p') (u_iri p)) (u_props sh)) as [q|] eqn:E.
    + apply find_some in E. destruct E as [J E]. apply String.eqb_eq in E. rewrite (in_names_apart u_iri _ N q p J I E). reflexivity.
    + pose proof (find_none _ _ E p I) as H. cbn in H. rewrite String.eqb_refl in H. discriminate.
Qed.

Theorem is_valid_iff m ts t : NoDup ts -> one_type ts -> plain m -> is_valid m (fst (scan ts)) (snd (scan ts)) t = true <-> valid m ts t.
Proof.
  intros N O [Nk Np]. unfold is_valid, valid. change rdf_type with the_type. destruct (String.eqb_spec (m_p t) the_type) as [E|E].
  - split.
    + intro H. left. split; [exact E|]. destruct (m_o t) as [[c|c]|]; try discriminate. destruct (lookup c m) as [sh|] eqn:L; [|discriminate]. exists c, sh. split; [reflexivity|]. apply lookup_in, L.
    + intros [(_ & c & sh & -> & I)|[E' _]]; [|destruct (E' E)]. rewrite (lookup_some c sh m Nk I). reflexivity.
  - split.
    + intro H. right. split; [exact E|]. unfold validate in H. destruct (find_at mnode_eqb (m_s t) (fst (scan ts))) as [c|] eqn:T; [|discriminate].
      destruct (lookup c m) as [sh|] eqn:L; [|discriminate]. destruct (find _ (u_props sh)) as [p|] eqn:Fp; [|discriminate]. apply lookup_in in L. apply (find_prop sh p _ (Np c sh L)) in Fp. destruct Fp as [Ip Ep].
      apply (type_iff ts _ _ O) in T. exists c, sh, p. rewrite (scan_counts ts _ _ E) in H. repeat (split; [assumption|]). split.
      * intros n En. rewrite En in H. apply at_most_iff; [exact N|]. destruct (Z.ltb_spec n (Z.of_nat (List.length (filter (for_key (m_s t) (m_p t)) ts)))); [discriminate|lia].
      * intros k Ik. destruct (match u_max p with Some mx => _ | None => _ end); [discriminate|]. rewrite forallb_forall in H. apply evaluate_iff; auto.
    + intros [[E' _]|(_ & c & sh & p & T & I & Ip & Ep & Mx & Cs)]; [destruct (E E')|]. unfold validate. apply (type_iff ts _ _ O) in T. rewrite T, (lookup_some c sh m Nk I).
      rewrite (proj2 (find_prop sh p _ (Np c sh I)) (conj Ip Ep)), (scan_counts ts _ _ E). destruct (u_max p) as [mx|].
      * pose proof (proj1 (at_most_iff ts _ _ mx N) (Mx mx eq_refl)). destruct (Z.ltb_spec mx (Z.of_nat (List.length (filter (for_key (m_s t) (m_p t)) ts)))); [lia|]. apply forallb_forall. intros k Ik. apply evaluate_iff; auto.
      * apply forallb_forall. intros k Ik. apply evaluate_iff; auto.
Qed.

(* ------------------------------------------------------------------ *)
(* The order of the triples                                             *)

Lemma valid_perm m ts ts' t : Permutation ts ts' -> valid m ts t -> valid m ts' t.
Proof.
  intros P. assert (T : forall s c, has_type ts s c -> has_type ts' s c) by (intros s c H; unfold has_type in *; rewrite <- P; exact H).
  assert (S : forall c o, satisfies ts c o -> satisfies ts' c o) by (intros c o; destruct c; cbn; auto; intros (n & -> & H); eauto).
  intros [H|(E & c & sh & p & H & I & Ip & Ep & Mx & Cs)]; [left; exact H|right]. split; [exact E|]. exists c, sh, p. repeat (split; [auto; fail|]). split; [|auto].
  intros n En l Nl Hl. apply (Mx n En l Nl). intros t' It. rewrite P. apply Hl, It.
Qed.
Lemma one_type_perm ts ts' : Permutation ts ts' -> one_type ts -> one_type ts'.
Proof. intros P O s c c'. unfold has_type. rewrite <- !P. apply O. Qed.
Lemma same_length_filter {A} (f g : A -> bool) l l' : Permutation l l' -> (forall a, In a l -> f a = g a) -> List.length (filter f l) = List.length (filter g l').
Proof.
  intros P H. assert (E : filter f l = filter g l) by (apply filter_ext_in, H). rewrite E. clear E H. induction P; cbn; auto; repeat (match goal with |- context [if ?b then _ else _] => destruct b end); cbn; congruence.
Qed.
Lemma bool_iff a b : (a = true <-> b = true) -> a = b.
Proof. destruct a, b; intuition congruence. Qed.

Lemma order_free m ts ts' tr : Permutation ts ts' -> NoDup ts -> one_type ts -> plain m -> from_graph_and_model ts m tr = from_graph_and_model ts' m tr.
Proof.
  intros P N O M. unfold from_graph_and_model. destruct (scan ts) as [ty oc] eqn:E, (scan ts') as [ty' oc'] eqn:E'.
  rewrite (Permutation_length P).
  assert (X : List.length (filter (is_valid m ty oc) ts) = List.length (filter (is_valid m ty' oc') ts')).
  { apply same_length_filter; [exact P|]. intros t _. apply bool_iff. change ty with (fst (ty, oc)). change oc with (snd (ty, oc)) at 2. change ty' with (fst (ty', oc')). change oc' with (snd (ty', oc')) at 2. rewrite <- E, <- E'.
    rewrite (is_valid_iff m ts t N O M), (is_valid_iff m ts' t (Permutation_NoDup P N) (one_type_perm _ _ P O) M). split; apply valid_perm; [exact P|symmetry; exact P]. }
  rewrite X. reflexivity.
Qed.

(* ------------------------------------------------------------------ *)
(* Percentages                                                          *)

Lemma filter_length_le {A} (f : A -> bool) l : (List.length (filter f l) <= List.length l)%nat.
Proof. induction l as [|a l IH]; cbn; [lia|]. destruct (f a); cbn; lia. Qed.
Lemma filter_all {A} (f : A -> bool) l : List.length (filter f l) = List.length l <-> forall a, In a l -> f a = true.
Proof.
  induction l as [|a l IH]; cbn; [split; [intros _ a []|reflexivity]|]. pose proof (filter_length_le f l) as Le. destruct (f a) eqn:E; cbn.
  - split; [intros H b [<-|I]; [exact E|apply IH; [lia|exact I]]|intro H; f_equal; apply IH; auto].
  - split; [lia|]. intro H. rewrite (H a (or_introl eq_refl)) in E. discriminate.
Qed.

Local Open Scope Q_scope.
Lemma share v n : (0 <= v <= n)%Z -> (0 < n)%Z -> 0 <= inject_Z v / inject_Z n <= 1 /\ (inject_Z v / inject_Z n == 1 <-> v = n).
Proof.
  intros [H0 H1] Hn. assert (P : 0 < inject_Z n) by (change 0 with (inject_Z 0); rewrite <- Zlt_Qlt; exact Hn). split; [split|].
  - apply Qle_shift_div_l; [exact P|]. rewrite Qmult_0_l. change 0 with (inject_Z 0). rewrite <- Zle_Qle. exact H0.
  - apply Qle_shift_div_r; [exact P|]. rewrite Qmult_1_l. rewrite <- Zle_Qle. exact H1.
  - split.
    + intro E. assert (X : inject_Z v == inject_Z n). { rewrite <- (Qmult_div_r (inject_Z v) (inject_Z n)); [|intro Z; rewrite Z in P; apply (Qlt_irrefl 0 P)]. rewrite E. ring. }
      apply inject_Z_injective. exact X.
    + intros ->. unfold Qdiv. apply Qmult_inv_r. intro Z. rewrite Z in P. apply (Qlt_irrefl 0 P).
Qed.

Lemma validity_range ts m tr : 0 <= validity (from_graph_and_model ts m tr) <= 100 /\
  (valid_triples (from_graph_and_model ts m tr) <= total_triples (from_graph_and_model ts m tr))%Z /\
  (validity (from_graph_and_model ts m tr) == 100 <-> ts <> [] /\ valid_triples (from_graph_and_model ts m tr) = total_triples (from_graph_and_model ts m tr)).
Proof.
  unfold from_graph_and_model. destruct (scan ts) as [ty oc]. cbn [validity valid_triples total_triples]. pose proof (filter_length_le (is_valid m ty oc) ts) as Le.
  set (v := Z.of_nat (List.length (filter (is_valid m ty oc) ts))) in *. destruct (Z.eqb_spec (Z.of_nat (List.length ts)) 0) as [E|E].
  - split; [split; [apply Qle_refl|intro H; discriminate H]|]. split; [lia|]. split; [intro H; discriminate H|]. intros [H _]. destruct ts; [destruct (H eq_refl)|discriminate].
  - destruct (share v (Z.of_nat (List.length ts)) ltac:(lia) ltac:(lia)) as [R1 R2]. split; [lra|]. split; [lia|]. rewrite <- R2. split; [intro H; split; [intros ->; apply E; reflexivity|lra]|intros [_ H]; rewrite H; reflexivity].
Qed.
Lemma loss_range ts m tr : (0 <= t_represented tr)%Z -> (0 <= t_original tr)%Z ->
  0 <= loss (from_graph_and_model ts m tr) <= 100 /\ (loss (from_graph_and_model ts m tr) == 0 <-> (t_original tr <= t_represented tr)%Z).
Proof.
  intros H0 H1. unfold from_graph_and_model. destruct (scan ts) as [ty oc]. cbn [loss]. destruct (Z.eqb_spec (t_original tr) 0) as [E|E].
  - split; [split; [apply Qle_refl|intro H; discriminate H]|]. split; [lia|intro; reflexivity].
  - destruct (share (Z.min (t_represented tr) (t_original tr)) (t_original tr) ltac:(lia) ltac:(lia)) as [R1 R2]. split; [lra|].
    split; [intro H; assert (X : inject_Z (Z.min (t_represented tr) (t_original tr)) / inject_Z (t_original tr) == 1) by lra; apply R2 in X; lia|].
    intro H. rewrite (proj2 R2) by lia. reflexivity.
Qed.
Local Close Scope Q_scope.

(* ------------------------------------------------------------------ *)
(* What is counted as lost                                              *)

Context {L : lib}.
Definition fair (c : Z * Z) : Prop := 0 <= snd c <= fst c.
Definition lossless (c : Z * Z) : Prop := fst c <= snd c.
Lemma sum_fair l : Forall fair l -> fair (sum l) /\ (lossless (sum l) <-> Forall lossless l).
Proof.
  unfold fair, lossless. induction 1 as [|[a b] l H G [IH1 IH2]]; [cbn; split; [lia|split; [constructor|lia]]|].
  change (sum ((a, b) :: l)) with (plus (a, b) (sum l)). unfold plus. cbn [fst snd] in *.
  split; [lia|]. split; [intro E; constructor; cbn; [lia|apply IH2; lia]|]. intro E. inversion E as [|? ? E1 E2]; subst. cbn in E1. apply IH2 in E2. lia.
Qed.
Lemma facets_fair fs : Forall fair (List.map facet_counts fs).
Proof. apply Forall_forall. intros c I. apply in_map_iff in I. destruct I as (f & <- & _). destruct f; cbn; unfold fair; cbn; lia. Qed.
Lemma facet_lossless f : lossless (facet_counts f) <-> kept_facet f.
Proof. destruct f; cbn; unfold lossless; cbn; intuition lia. Qed.
Lemma node_fair n : fair (node_counts n) /\ (lossless (node_counts n) <-> kept (SNode n)).
Proof.
  pose proof (sum_fair _ (facets_fair match n_facets n with Some fs => fs | None => [] end)) as [F1 F2].
  assert (Ff : fair match n_facets n with Some fs => sum (List.map facet_counts fs) | None => (0, 0) end). { destruct (n_facets n); [exact F1|unfold fair; cbn; lia]. }
  assert (A : Forall fair [present (n_datatype n); present (n_kind n);
       (match n_values n with Some vs => Z.of_nat (List.length vs) | None => 0%Z end, 0%Z);
       match n_facets n with Some fs => sum (List.map facet_counts fs) | None => (0, 0)%Z end]).
  { repeat (apply Forall_cons); [..|apply Forall_nil]; [| | |exact Ff]; unfold fair; cbn; [destruct (n_datatype n)|destruct (n_kind n)|destruct (n_values n)]; cbn; lia. }
  destruct (sum_fair _ A) as [B1 B2]. split; [exact B1|]. unfold node_counts. rewrite B2. split.
  - intro H. inversion_clear H as [|? ? _ H1]. inversion_clear H1 as [|? ? _ H2]. inversion_clear H2 as [|? ? H3 H4]. inversion_clear H4 as [|? ? H5 _]. cbn [kept]. split.
    + intros vs E. rewrite E in H3. unfold lossless in H3. cbn in H3. destruct vs; [reflexivity|cbn in H3; lia].
    + intros fs f E I. rewrite E in *. apply F2 in H5. rewrite Forall_forall in H5. apply facet_lossless, H5, in_map, I.
  - intros [V Fs]. repeat (apply Forall_cons); [..|apply Forall_nil]; unfold lossless; [destruct (n_datatype n); cbn; lia|destruct (n_kind n); cbn; lia| |].
    + cbn. destruct (n_values n) as [vs|]; [rewrite (V vs eq_refl); cbn|]; lia.
    + destruct (n_facets n) as [fs|]; [|cbn; lia]. apply F2. apply Forall_forall. intros c I. apply in_map_iff in I. destruct I as (f & <- & I). apply facet_lossless. exact (Fs fs f eq_refl I).
Qed.
Lemma expr_fair te : fair (expr_counts te) /\ (lossless (expr_counts te) <-> forall p e, In (p, Some e) (constraints te) -> kept e).
Proof.
  assert (Group : forall l, Forall (fun te => fair (expr_counts te) /\ (lossless (expr_counts te) <-> forall p e, In (p, Some e) (constraints te) -> kept e)) l ->
     fair (sum (List.map expr_counts l)) /\ (lossless (sum (List.map expr_counts l)) <-> forall p e, In (p, Some e) (flat_map constraints l) -> kept e)).
  { intros l H. assert (A : Forall fair (List.map expr_counts l)). { apply Forall_forall. intros c I. apply in_map_iff in I. destruct I as (te' & <- & I). rewrite Forall_forall in H. apply (H te' I). }
    destruct (sum_fair _ A) as [B1 B2]. split; [exact B1|]. rewrite B2, !Forall_forall. rewrite Forall_forall in H. split.
    - intros K p e I. apply in_flat_map in I. destruct I as (te' & I & J). apply (proj1 (proj2 (H te' I)) (K _ (in_map _ _ _ I)) p e J).
    - intros K c I. apply in_map_iff in I. destruct I as (te' & <- & I). apply (H te' I). intros p e J. apply (K p e). apply in_flat_map. eauto. }
  induction te as [id l mn mx a x H|id l mn mx a x H|id neg inv p ve mn mx a x|l] using texpr_ind'.
  - exact (Group l H).
  - exact (Group l H).
  - cbn [expr_counts constraints]. set (v := match ve with Some (SRef _) => (1, 1) | _ => _ end).
    assert (V : fair v /\ (lossless v <-> forall e, ve = Some e -> kept e)).
    { unfold v. destruct ve as [e|]; [|split; [unfold fair; cbn; lia|split; [discriminate|unfold lossless; cbn; lia]]].
      destruct e; try (split; [unfold fair; cbn; lia|split; [unfold lossless; cbn; lia|intro H; destruct (H _ eq_refl)]]).
      - destruct (node_fair n) as [N1 N2]. split; [exact N1|]. rewrite N2. split; [intros H e E; injection E as <-; exact H|intro H; apply H; reflexivity].
      - split; [unfold fair; cbn; lia|]. split; [intros _ e E; injection E as <-; exact Logic.I|unfold lossless; cbn; lia]. }
    destruct V as [V1 V2]. assert (A : Forall fair [present mn; present mx; v]). { repeat (apply Forall_cons); [..|apply Forall_nil]; [| |exact V1]; unfold fair; [destruct mn|destruct mx]; cbn; lia. }
    destruct (sum_fair _ A) as [B1 B2]. split; [exact B1|]. rewrite B2. split.
    + intros H p' e [E|[]]. injection E as -> E. inversion_clear H as [|? ? _ H1]. inversion_clear H1 as [|? ? _ H2]. inversion_clear H2 as [|? ? H3 _]. exact (proj1 V2 H3 e E).
    + intro H. repeat (apply Forall_cons); [unfold lossless; destruct mn; cbn; lia|unfold lossless; destruct mx; cbn; lia| |apply Forall_nil]. apply V2. intros e E. subst ve. apply (H p e). left. reflexivity.
  - cbn. split; [unfold fair; cbn; lia|]. split; [intros _ p e []|unfold lossless; cbn; lia].
Qed.
Lemma translation_fair ds : 0 <= t_represented (translation_of ds) <= t_original (translation_of ds) /\
  (t_original (translation_of ds) <= t_represented (translation_of ds) <-> nothing_lost ds).
Proof.
  unfold translation_of. cbn [t_original t_represented]. set (f := fun d : decl => match d_expr d with SShape _ _ (Some te) _ _ _ => expr_counts te | _ => (0, 0) end).
  assert (A : Forall fair (List.map f ds)).
  { apply Forall_forall. intros c I. apply in_map_iff in I. destruct I as (d & <- & _). unfold f. destruct (d_expr d) as [| | | |c e te a n ex| |]; try (unfold fair; cbn; lia). destruct te; [apply expr_fair|unfold fair; cbn; lia]. }
  destruct (sum_fair _ A) as [B1 B2]. split; [exact B1|]. fold (lossless (sum (List.map f ds))). rewrite B2, Forall_forall. split.
  - intros H d c x te a n ex p e I E J. pose proof (H (f d) (in_map f _ _ I)) as K. unfold f in K. rewrite E in K. exact (proj1 (proj2 (expr_fair te)) K p e J).
  - intros H c I. apply in_map_iff in I. destruct I as (d & <- & I). unfold f. destruct (d_expr d) as [| | | |c e te a n ex| |] eqn:E; try (unfold lossless; cbn; lia). destruct te as [te|]; [|unfold lossless; cbn; lia].
    apply expr_fair. intros p e' J. exact (H d c e te a n ex p e' I E J).
Qed.
End Lemmas.
