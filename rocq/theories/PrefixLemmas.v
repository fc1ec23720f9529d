From Coq Require Import List Arith Bool Lia Permutation.
Import ListNotations.
From Verif Require Import PrefixModel PrefixSpec.

Lemma str_eqb_spec a : forall b, reflect (a = b) (str_eqb a b).
Proof.
  induction a as [|x a IH]; intros [|y b]; cbn [str_eqb]; try (constructor; congruence).
  destruct (Nat.eqb_spec x y) as [->|]; cbn [andb]; [|constructor; congruence].
  destruct (IH b) as [->|]; constructor; congruence.
Qed.
Lemma str_eqb_refl a : str_eqb a a = true.
Proof. destruct (str_eqb_spec a a); congruence. Qed.

Lemma find_In a m i : find a m = Some i -> In (a, i) m.
Proof.
  induction m as [|[b j] m IH]; cbn [find]; [discriminate|]. destruct (str_eqb_spec a b) as [->|]; [intro H; injection H as ->; left; reflexivity|auto].
  intro H. right. auto.
Qed.
Lemma find_None a m : find a m = None <-> ~ In a (map fst m).
Proof.
  induction m as [|[b j] m IH]; cbn [find map fst In]; [tauto|]. destruct (str_eqb_spec a b) as [->|N]; [split; [discriminate|tauto]|].
  rewrite IH. split; [intros H [E|E]; [congruence|tauto]|tauto].
Qed.
Lemma In_find a m i : proper m -> In (a, i) m -> find a m = Some i.
Proof.
  unfold proper. induction m as [|[b j] m IH]; cbn [map fst find In]; intros P I; [destruct I|]. inversion P as [|? ? N P']; subst.
  destruct I as [E|I]; [injection E as -> ->; rewrite str_eqb_refl; reflexivity|].
  destruct (str_eqb_spec a b) as [->|]; [|auto]. destruct N. apply in_map_iff. exists (b, i). auto.
Qed.
Lemma find_iff a m i : proper m -> (find a m = Some i <-> In (a, i) m).
Proof. intro P. split; [apply find_In|apply In_find; exact P]. Qed.

(** ** Operations *)
Lemma find_add a i b m : find b (add_prefix a i m) = if str_eqb b a then Some i else find b m.
Proof.
  induction m as [|[c j] m IH]; cbn [add_prefix find]; [reflexivity|].
  destruct (str_eqb_spec a c) as [->|N]; cbn [find].
  - destruct (str_eqb b c); reflexivity.
  - destruct (str_eqb_spec b c) as [->|]; [|exact IH]. destruct (str_eqb_spec c a); [congruence|reflexivity].
Qed.
Lemma keys_add a i m x : In x (map fst (add_prefix a i m)) <-> x = a \/ In x (map fst m).
Proof.
  induction m as [|[c j] m IH]; cbn [add_prefix map fst In]; [split; intros [H|H]; auto; destruct H|].
  destruct (str_eqb_spec a c) as [->|N]; cbn [map fst In]; [|rewrite IH]; split; intuition congruence.
Qed.
Lemma proper_add a i m : proper m -> proper (add_prefix a i m).
Proof.
  unfold proper. induction m as [|[c j] m IH]; cbn [add_prefix map fst]; intro P; [constructor; [intros []|constructor]|].
  inversion P as [|? ? N P']; subst. destruct (str_eqb_spec a c) as [->|N']; cbn [map fst]; constructor; auto.
  rewrite keys_add. intros [->|H]; [congruence|tauto].
Qed.
Lemma keys_remove a m x : In x (map fst (remove_prefix a m)) -> In x (map fst m).
Proof.
  induction m as [|[c j] m IH]; cbn [remove_prefix map fst In]; [tauto|].
  destruct (str_eqb a c); cbn [map fst In]; [auto|]. intros [H|H]; auto.
Qed.
Lemma proper_remove a m : proper m -> proper (remove_prefix a m).
Proof.
  unfold proper. induction m as [|[c j] m IH]; cbn [remove_prefix map fst]; intro P; [constructor|].
  inversion P as [|? ? N P']; subst. destruct (str_eqb a c); [exact P'|]. cbn [map fst]. constructor; [|auto].
  intro H. apply keys_remove in H. tauto.
Qed.
Lemma find_remove a b m : proper m -> find b (remove_prefix a m) = if str_eqb b a then None else find b m.
Proof.
  unfold proper. induction m as [|[c j] m IH]; cbn [remove_prefix find map fst]; intro P.
  - destruct (str_eqb b a); reflexivity.
  - inversion P as [|? ? N P']; subst. destruct (str_eqb_spec a c) as [->|N'].
    + destruct (str_eqb_spec b c) as [->|]; [|reflexivity]. apply find_None. exact N.
    + cbn [find]. destruct (str_eqb_spec b c) as [->|]; [destruct (str_eqb_spec c a); [congruence|reflexivity]|auto].
Qed.
Lemma proper_merge other : forall m, proper m -> proper (merge m other).
Proof. unfold merge. induction other as [|[a i] o IH]; intros m P; cbn [fold_left]; [exact P|]. apply IH. apply proper_add. exact P. Qed.
Lemma find_merge other : forall m b, proper other ->
  find b (merge m other) = match find b other with Some i => Some i | None => find b m end.
Proof.
  unfold merge, proper. induction other as [|[a i] o IH]; intros m b P; cbn [fold_left map fst find snd]; [reflexivity|].
  inversion P as [|? ? N P']; subst. cbn [map fst snd] in *. rewrite IH by exact P'. rewrite find_add.
  destruct (str_eqb_spec b a) as [->|]; [|reflexivity].
  replace (find a o) with (@None str); [reflexivity|]. symmetry. apply find_None. exact N.
Qed.

Lemma run_snoc ops o : run (ops ++ [o]) = apply (run ops) o.
Proof. unfold run. rewrite fold_left_app. reflexivity. Qed.
Lemma run_proper ops : proper (run ops).
Proof.
  induction ops as [|o ops IH] using rev_ind; [constructor|]. rewrite run_snoc. destruct o; cbn [apply];
    [apply proper_add|apply proper_remove|apply proper_merge]; exact IH.
Qed.
Lemma run_history ops : Forall proper_op ops -> history ops (fun a => find a (run ops)).
Proof.
  induction ops as [|o ops IH] using rev_ind; intro P; [constructor; reflexivity|].
  apply Forall_app in P. destruct P as [P Q]. inversion Q as [|? ? Qo _]; subst.
  apply history_snoc with (fun a => find a (run ops)); [exact (IH P)|]. rewrite run_snoc. destruct o as [a i|a|other]; cbn [apply updated].
  - split; [rewrite find_add, str_eqb_refl; reflexivity|]. intros b N. rewrite find_add. destruct (str_eqb_spec b a); [congruence|reflexivity].
  - pose proof (run_proper ops) as RP. split; [rewrite find_remove, str_eqb_refl by exact RP; reflexivity|].
    intros b N. rewrite find_remove by exact RP. destruct (str_eqb_spec b a); [congruence|reflexivity].
  - split.
    + intros a i I. rewrite find_merge by exact Qo. rewrite (In_find a other i Qo I). reflexivity.
    + intros a N. rewrite find_merge by exact Qo. apply find_None in N. rewrite N. reflexivity.
Qed.
Lemma str_dec (a b : str) : {a = b} + {a <> b}.
Proof. apply list_eq_dec, Nat.eq_dec. Qed.
Lemma history_unique ops m m' : history ops m -> history ops m' -> forall a, m a = m' a.
Proof.
  intro H. revert m'. induction H as [m Z|ops o m n H IH U]; intros m' H' a.
  - inversion H' as [m0 Z' E|ops o m0 n0 X Y E]; subst; [rewrite Z, Z'; reflexivity|destruct ops; discriminate].
  - inversion H' as [m0 Z' E|ops' o' m0 n0 X Y E]; subst; [destruct ops; discriminate|].
    apply app_inj_tail in E. destruct E as [-> ->]. specialize (IH _ X). destruct o as [b i|b|other]; cbn [updated] in *.
    + destruct U as [U1 U2], Y as [Y1 Y2]. destruct (str_dec a b) as [->|N]; [congruence|]. rewrite U2, Y2 by exact N. apply IH.
    + destruct U as [U1 U2], Y as [Y1 Y2]. destruct (str_dec a b) as [->|N]; [congruence|]. rewrite U2, Y2 by exact N. apply IH.
    + destruct U as [U1 U2], Y as [Y1 Y2]. destruct (in_dec str_dec a (map fst other)) as [I|N].
      * apply in_map_iff in I. destruct I as ([a' i] & <- & I). cbn [fst]. rewrite (U1 _ _ I), (Y1 _ _ I). reflexivity.
      * rewrite U2, Y2 by exact N. apply IH.
Qed.
Lemma run_find ops m : Forall proper_op ops -> history ops m -> forall a, find a (run ops) = m a.
Proof. intros P H a. exact (history_unique ops (fun a => find a (run ops)) m (run_history ops P) H a). Qed.

(** ** Abbreviation *)
Lemma strip_prefix_spec p : forall s r, strip_prefix p s = Some r <-> s = p ++ r.
Proof.
  induction p as [|x p IH]; intros s r; cbn [strip_prefix app].
  - split; [intro H; injection H as ->; reflexivity|intros ->; reflexivity].
  - destruct s as [|y s]; [split; discriminate|]. destruct (Nat.eqb_spec x y) as [->|N].
    + rewrite IH. split; [intros ->; reflexivity|intro H; injection H as ->; reflexivity].
    + split; [discriminate|intro H; injection H as -> _; congruence].
Qed.
Lemma max_by_key_spec {A} (f : A -> nat) l :
  match max_by_key f l with
  | Some x => In x l /\ forall y, In y l -> f y <= f x
  | None => l = []
  end.
Proof.
  induction l as [|x l IH]; cbn [max_by_key]; [reflexivity|]. destruct (max_by_key f l) as [y|].
  - destruct IH as [I M]. destruct (Nat.leb_spec (f x) (f y)) as [L|L].
    + split; [right; exact I|]. intros z [<-|Z]; auto.
    + split; [left; reflexivity|]. intros z [<-|Z]; [lia|]. apply M in Z. lia.
  - subst l. split; [left; reflexivity|]. intros z [<-|[]]. lia.
Qed.
Lemma candidates_In m iri alias rest :
  In (alias, rest) (flat_map (fun ai : str * str => match strip_prefix (snd ai) iri with Some rest => [(fst ai, rest)] | None => [] end) m)
  <-> denotes m alias rest iri.
Proof.
  rewrite in_flat_map. split.
  - intros ([a ns] & I & H). cbn [fst snd] in H. destruct (strip_prefix ns iri) as [r|] eqn:E; [|destruct H].
    destruct H as [H|[]]. injection H as -> ->. exists ns. split; [exact I|]. apply strip_prefix_spec. exact E.
  - intros (ns & I & E). exists (alias, ns). split; [exact I|]. cbn [fst snd]. apply strip_prefix_spec in E. rewrite E. left. reflexivity.
Qed.
Lemma longest_spec m iri :
  match longest_prefix_match m iri with
  | Some (alias, rest) => denotes m alias rest iri /\ forall alias' rest', denotes m alias' rest' iri -> length rest <= length rest'
  | None => forall alias rest, ~ denotes m alias rest iri
  end.
Proof.
  unfold longest_prefix_match. match goal with |- context [max_by_key ?f ?l] => pose proof (max_by_key_spec f l) as S; destruct (max_by_key f l) as [[alias rest]|] end.
  - destruct S as [I M]. apply candidates_In in I. split; [exact I|]. intros a' r' D.
    assert (L : forall a r, denotes m a r iri -> length r <= length iri).
    { intros a r (ns & _ & ->). rewrite app_length. lia. }
    pose proof (L _ _ D). pose proof (L _ _ I). apply candidates_In in D. specialize (M _ D). cbn [snd] in M. lia.
  - intros a r D. apply candidates_In in D. rewrite S in D. destruct D.
Qed.

(** ** Resolution *)
Lemma rsplit_None s : rsplit_once s = None <-> ~ In colon s.
Proof.
  induction s as [|c s IH]; cbn [rsplit_once In]; [tauto|]. destruct (rsplit_once s) as [[a b]|].
  - split; [discriminate|]. intro H. exfalso. assert (X : ~ In colon s) by tauto. apply IH in X. discriminate.
  - destruct (Nat.eqb_spec c colon) as [->|N]; [split; [discriminate|tauto]|]. split; [|reflexivity]. intros _ [H|H]; [congruence|].
    apply IH in H; auto.
Qed.
Lemma rsplit_last a : forall b, ~ In colon b -> rsplit_once (a ++ colon :: b) = Some (a, b).
Proof.
  induction a as [|c a IH]; intros b N; cbn [app rsplit_once].
  - apply rsplit_None in N. rewrite N. reflexivity.
  - rewrite IH by exact N. reflexivity.
Qed.
Lemma ends_with_spec c s : ends_with c s = true <-> exists p, s = p ++ [c].
Proof.
  unfold ends_with. split.
  - destruct (rev s) as [|x r] eqn:E; [discriminate|]. intro H. apply Nat.eqb_eq in H. subst x. exists (rev r).
    rewrite <- (rev_involutive s), E. reflexivity.
  - intros (p & ->). rewrite rev_unit. apply Nat.eqb_refl.
Qed.
Lemma separator_spec ns : ends_with slash ns || ends_with hash_sign ns = true <-> ends_in_separator ns.
Proof.
  rewrite orb_true_iff, !ends_with_spec. split.
  - intros [(p & E)|(p & E)]; exists p; auto.
  - intros (p & [E|E]); [left|right]; exists p; exact E.
Qed.
Lemma extend_spec is_iri ns s i : extend is_iri ns s = Some i <->
  is_iri i = true /\ (ends_in_separator ns /\ i = ns ++ s \/ ~ ends_in_separator ns /\ i = ns ++ slash :: s).
Proof.
  unfold extend. rewrite <- separator_spec. destruct (ends_with slash ns || ends_with hash_sign ns) eqn:E.
  - destruct (is_iri (ns ++ s)) eqn:V.
    + split; [intro H; injection H as <-; auto|]. intros [_ [[_ ->]|[N _]]]; [reflexivity|destruct N; reflexivity].
    + split; [discriminate|]. intros [V' [[_ ->]|[N _]]]; [congruence|destruct N; reflexivity].
  - destruct (is_iri (ns ++ slash :: s)) eqn:V.
    + split; [intro H; injection H as <-; auto|]. intros [_ [[D _]|[_ ->]]]; [discriminate|reflexivity].
    + split; [discriminate|]. intros [V' [[D _]|[_ ->]]]; [discriminate|congruence].
Qed.
Lemma resolve_local_spec is_iri m prefix local i : proper m ->
  (resolve_prefix_local is_iri m prefix local = Some i <->
   exists ns, In (prefix, ns) m /\
     (local = [] /\ i = ns \/
      local <> [] /\ is_iri i = true /\ (ends_in_separator ns /\ i = ns ++ local \/ ~ ends_in_separator ns /\ i = ns ++ slash :: local))).
Proof.
  intro P. unfold resolve_prefix_local. split.
  - destruct (find prefix m) as [ns|] eqn:F; [|discriminate]. intro H. exists ns. split; [apply find_In; exact F|].
    destruct local as [|c local]; [injection H as <-; auto|]. apply extend_spec in H. right. split; [discriminate|exact H].
  - intros (ns & I & H). rewrite (In_find _ _ _ P I). destruct local as [|c local].
    + destruct H as [[_ ->]|[N _]]; [reflexivity|congruence].
    + destruct H as [[D _]|[_ H]]; [discriminate|]. apply extend_spec. exact H.
Qed.

Lemma app_slash_neq (ns s : str) : ns ++ s <> ns ++ slash :: s.
Proof. intro H. apply app_inv_head in H. apply (f_equal (@length nat)) in H. cbn in H. lia. Qed.

Lemma round_trip is_iri m iri alias rest : proper m -> is_iri iri = true -> longest_prefix_match m iri = Some (alias, rest) ->
  ~ In colon rest ->
  (resolve is_iri m (qualify m iri) = Some iri <->
   rest = [] \/ exists ns, In (alias, ns) m /\ iri = ns ++ rest /\ ends_in_separator ns).
Proof.
  intros P V L NC. unfold qualify, qualify_optional. rewrite L. unfold resolve. rewrite rsplit_last by exact NC.
  rewrite resolve_local_spec by exact P. pose proof (longest_spec m iri) as S. rewrite L in S. destruct S as [(ns & I & E) _]. split.
  - intros (ns' & I' & H). assert (ns' = ns) by (apply (In_find _ _ _ P) in I, I'; congruence). subst ns'.
    destruct H as [[-> _]|(N & _ & [[A B]|[A B]])]; [auto|right; exists ns; auto|]. rewrite E in B. destruct (app_slash_neq _ _ B).
  - intros [->|(ns' & I' & E' & Sep)].
    + exists ns. split; [exact I|]. left. split; [reflexivity|]. rewrite E, app_nil_r. reflexivity.
    + exists ns'. split; [exact I'|]. destruct rest as [|c rest].
      * left. split; [reflexivity|]. rewrite E', app_nil_r. reflexivity.
      * right. split; [discriminate|]. split; [exact V|]. left. auto.
Qed.

(** ** Equality and hashing *)
Lemma pmap_eqb_spec m m' : proper m -> proper m' -> (pmap_eqb m m' = true <-> forall a, find a m = find a m').
Proof.
  intros P P'. unfold pmap_eqb. rewrite andb_true_iff, Nat.eqb_eq, forallb_forall. split.
  - intros [L F] a.
    assert (I : forall e, In e m -> In e m').
    { intros [b i] I. specialize (F _ I). cbn [fst snd] in F. destruct (find b m') as [j|] eqn:E; [|discriminate].
      destruct (str_eqb_spec i j) as [->|]; [|discriminate]. apply find_In. exact E. }
    assert (J : forall e, In e m' -> In e m).
    { intros e. apply NoDup_length_incl; [|lia|exact I]. apply (NoDup_map_inv fst). exact P. }
    destruct (find a m) as [i|] eqn:E.
    + apply find_In in E. apply I in E. symmetry. apply In_find; assumption.
    + destruct (find a m') as [i|] eqn:E'; [|reflexivity]. apply find_In in E'. apply J in E'. apply (In_find _ _ _ P) in E'. congruence.
  - intro H. assert (I : forall e, In e m <-> In e m').
    { intros [a i]. rewrite <- (find_iff a m i P), <- (find_iff a m' i P'), H. reflexivity. }
    split.
    + apply Permutation_length. apply NoDup_Permutation; [apply (NoDup_map_inv fst); exact P|apply (NoDup_map_inv fst); exact P'|exact I].
    + intros [a i] J. cbn [fst snd]. apply (In_find _ _ _ P) in J. rewrite <- H, J. apply str_eqb_refl.
Qed.

Lemma str_leb_total a : forall b, str_leb a b = true \/ str_leb b a = true.
Proof.
  induction a as [|x a IH]; intros [|y b]; cbn [str_leb]; auto. rewrite !orb_true_iff, !andb_true_iff, !Nat.ltb_lt, !Nat.eqb_eq.
  destruct (IH b), (lt_eq_lt_dec x y) as [[|]|]; auto.
Qed.
Lemma str_leb_trans a : forall b c, str_leb a b = true -> str_leb b c = true -> str_leb a c = true.
Proof.
  induction a as [|x a IH]; intros [|y b] [|z c]; cbn [str_leb]; auto; try discriminate.
  rewrite !orb_true_iff, !andb_true_iff, !Nat.ltb_lt, !Nat.eqb_eq. intros [H|[H H1]] [G|[G G1]]; [left; lia|left; lia|left; lia|].
  right. split; [lia|]. exact (IH _ _ H1 G1).
Qed.
Lemma str_leb_antisym a : forall b, str_leb a b = true -> str_leb b a = true -> a = b.
Proof.
  induction a as [|x a IH]; intros [|y b]; cbn [str_leb]; auto; try discriminate.
  rewrite !orb_true_iff, !andb_true_iff, !Nat.ltb_lt, !Nat.eqb_eq. intros [H|[-> H]] [G|[G G1]]; try lia. f_equal. auto.
Qed.

Inductive ordered : pmap -> Prop :=
| ordered_nil : ordered []
| ordered_cons e l : (forall f, In f l -> str_leb (fst e) (fst f) = true) -> ordered l -> ordered (e :: l).
Lemma insert_perm e l : Permutation (insert_sorted e l) (e :: l).
Proof.
  induction l as [|f l IH]; cbn [insert_sorted]; [reflexivity|]. destruct (str_leb (fst e) (fst f)); [reflexivity|].
  rewrite IH. apply perm_swap.
Qed.
Lemma insert_ordered e l : ordered l -> ordered (insert_sorted e l).
Proof.
  induction 1 as [|f l H O IH]; cbn [insert_sorted]; [constructor; [intros f []|constructor]|].
  destruct (str_leb (fst e) (fst f)) eqn:E.
  - constructor; [|constructor; assumption]. intros g [<-|G]; [exact E|]. exact (str_leb_trans _ _ _ E (H g G)).
  - constructor; [|exact IH]. intros g G. apply (Permutation_in _ (insert_perm e l)) in G. destruct G as [<-|G]; [|exact (H g G)].
    destruct (str_leb_total (fst e) (fst f)); [congruence|assumption].
Qed.
Lemma hash_perm m : Permutation (hash_input m) m.
Proof. induction m as [|e m IH]; cbn [hash_input fold_right]; [constructor|]. rewrite insert_perm. constructor. exact IH. Qed.
Lemma hash_ordered m : ordered (hash_input m).
Proof. induction m as [|e m IH]; cbn [hash_input fold_right]; [constructor|]. apply insert_ordered. exact IH. Qed.
Lemma ordered_unique l : forall l', ordered l -> ordered l' -> NoDup (map fst l) -> Permutation l l' -> l = l'.
Proof.
  induction l as [|e l IH]; intros l' O O' N P.
  - apply Permutation_nil in P. congruence.
  - destruct l' as [|f l']; [apply Permutation_sym, Permutation_nil in P; discriminate|].
    inversion O as [|? ? H O1]; subst. inversion O' as [|? ? H' O1']; subst.
    assert (E : e = f).
    { assert (I : In e (f :: l')) by (apply (Permutation_in _ P); left; reflexivity).
      assert (J : In f (e :: l)) by (apply (Permutation_in _ (Permutation_sym P)); left; reflexivity).
      destruct I as [I|I]; [congruence|]. destruct J as [J|J]; [congruence|].
      pose proof (str_leb_antisym _ _ (H f J) (H' e I)) as Q. exfalso. cbn [map] in N. inversion N as [|? ? N1 _]; subst.
      apply N1. rewrite Q. apply in_map. exact J. }
    subst f. f_equal. apply IH; [assumption|assumption|cbn [map] in N; inversion N; assumption|].
    apply Permutation_cons_inv in P. exact P.
Qed.
Lemma equal_hash m m' : proper m -> proper m' -> pmap_eqb m m' = true -> hash_input m = hash_input m'.
Proof.
  intros P P' E. pose proof (proj1 (pmap_eqb_spec m m' P P') E) as F.
  apply ordered_unique; [apply hash_ordered|apply hash_ordered| |].
  - apply (Permutation_NoDup (l := map fst m)); [apply Permutation_map, Permutation_sym, hash_perm|exact P].
  - rewrite !hash_perm. apply NoDup_Permutation; [apply (NoDup_map_inv fst); exact P|apply (NoDup_map_inv fst); exact P'|].
    intros [a i]. rewrite <- (find_iff a m i P), <- (find_iff a m' i P'), F. reflexivity.
Qed.
