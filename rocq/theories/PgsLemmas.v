(** Lemmas about the model of property graph schemas. *)
From Coq Require Import List Bool Arith ZArith NArith Sorted Lia.
Import ListNotations.
From Verif Require Import PgsModel PgsSpec.

(** ** Values and conditions *)

Lemma text_eqb_eq a b : text_eqb a b = true <-> a = b.
Proof.
  revert b; induction a as [|x a IH]; destruct b as [|y b]; cbn [text_eqb];
    try (split; [discriminate|congruence]); [tauto|].
  rewrite andb_true_iff, N.eqb_eq, IH. split; [intros [-> ->]; auto|intros [= -> ->]; auto].
Qed.

Lemma value_eqb_eq a b : value_eqb a b = true <-> a = b.
Proof.
  destruct a, b; cbn [value_eqb]; try (split; [discriminate|congruence]).
  - rewrite text_eqb_eq. split; congruence.
  - rewrite Z.eqb_eq. split; congruence.
  - rewrite Z.eqb_eq. split; congruence.
  - rewrite eqb_true_iff. split; congruence.
Qed.

Lemma before_int i j : before (VInteger i) (VInteger j) <-> (i < j)%Z.
Proof. split; [now inversion 1|now constructor]. Qed.

Lemma before_day i j : before (VDate i) (VDate j) <-> (i < j)%Z.
Proof. split; [now inversion 1|now constructor]. Qed.

Lemma gtb_ltb' i j : Z.gtb i j = true <-> (j < i)%Z.
Proof. rewrite Z.gtb_ltb, Z.ltb_lt. tauto. Qed.

Lemma geb_leb' i j : Z.geb i j = true <-> (j <= i)%Z.
Proof. rewrite Z.geb_leb, Z.leb_le. tauto. Qed.

(** A typed condition has an answer. *)
Lemma check_typed rx c v :
  typed rx c v -> exists b, check rx c v = Ok b /\ (b = true <-> sat rx c v).
Proof.
  induction c as [| |a IHa c IHc|a IHa c IHc|a IHa|w|w|w|w|w|p]; cbn [check typed sat]; intro T.
  - exists true. tauto.
  - exists false. split; [auto|]. split; [discriminate|tauto].
  - destruct T as [Ta Tc]. destruct (IHa Ta) as [x [-> Hx]]. destruct (IHc Tc) as [y [-> Hy]].
    exists (x && y). split; [auto|]. rewrite andb_true_iff. tauto.
  - destruct T as [Ta Tc]. destruct (IHa Ta) as [x [-> Hx]]. destruct (IHc Tc) as [y [-> Hy]].
    exists (x || y). split; [auto|]. rewrite orb_true_iff. tauto.
  - destruct (IHa T) as [x [-> Hx]]. exists (negb x). split; [auto|].
    rewrite <- Hx. destruct x; cbn; split; congruence.
  - exists (value_eqb v w). split; [auto|]. apply value_eqb_eq.
  - destruct T; cbn [greater_than]; eexists; (split; [reflexivity|]);
      rewrite gtb_ltb'; symmetry; [apply before_int|apply before_day].
  - destruct T; cbn [less_than]; eexists; (split; [reflexivity|]);
      rewrite Z.ltb_lt; symmetry; [apply before_int|apply before_day].
  - destruct T; cbn [greater_than_or_equal]; eexists; (split; [reflexivity|]);
      rewrite geb_leb'; rewrite ?before_int, ?before_day; (split;
      [intro H; destruct (Z.eq_dec i j); [right; split; [constructor|congruence]|left; lia]
      |intros [H|[_ [= ->]]]; lia]).
  - destruct T; cbn [less_than_or_equal]; eexists; (split; [reflexivity|]);
      rewrite Z.leb_le; rewrite ?before_int, ?before_day; (split;
      [intro H; destruct (Z.eq_dec i j); [right; split; [constructor|congruence]|left; lia]
      |intros [H|[_ [= ->]]]; lia]).
  - destruct T as [s [-> H]]. cbn [regex_match]. destruct (rx p s) as [b|] eqn:E; [|congruence].
    exists b. split; [auto|]. split; [intros ->; eauto|intros [s' [[= <-] H']]; congruence].
Qed.

(** An answer only comes from a typed condition. *)
Lemma check_typed_only rx c v b : check rx c v = Ok b -> typed rx c v.
Proof.
  revert b; induction c as [| |a IHa c IHc|a IHa c IHc|a IHa|w|w|w|w|w|p]; intro b; cbn [check typed]; intro E; auto.
  - destruct (check rx a v) as [x|]; [|discriminate]. destruct (check rx c v) as [y|]; [|discriminate].
    split; eauto.
  - destruct (check rx a v) as [x|]; [|discriminate]. destruct (check rx c v) as [y|]; [|discriminate].
    split; eauto.
  - destruct (check rx a v) as [x|]; [|discriminate]. eauto.
  - destruct v, w; try discriminate; constructor.
  - destruct v, w; try discriminate; constructor.
  - destruct v, w; try discriminate; constructor.
  - destruct v, w; try discriminate; constructor.
  - destruct v; try discriminate. cbn in E. exists s. split; [auto|]. destruct (rx p s); congruence.
Qed.

Lemma check_ok rx c v b :
  check rx c v = Ok b <-> typed rx c v /\ (b = true <-> sat rx c v).
Proof.
  split.
  - intro E. pose proof (check_typed_only _ _ _ _ E) as T. split; [exact T|].
    destruct (check_typed _ _ _ T) as [b' [E' H]]. congruence.
  - intros [T H]. destruct (check_typed _ _ _ T) as [b' [E' H']]. rewrite E'. f_equal.
    apply eq_iff_eq_true. tauto.
Qed.

Lemma fits_ok c n : card_contains c n = true <-> fits c n.
Proof.
  destruct c as [| | | |lo [|hi]]; cbn [card_contains fits].
  - rewrite Nat.leb_le. lia.
  - rewrite Nat.eqb_eq. tauto.
  - tauto.
  - rewrite Nat.leb_le. lia.
  - rewrite Nat.leb_le. tauto.
  - rewrite andb_true_iff, !Nat.leb_le. tauto.
Qed.

Lemma sized_ok c vs p :
  is_right (sized c vs p) = true <-> fits c (length vs) /\ forall v, In v vs -> p v = true.
Proof.
  unfold sized, check_all. rewrite <- fits_ok. destruct (card_contains c (length vs)); cbn [negb].
  - destruct (forallb p vs) eqn:E; cbn [is_right].
    + rewrite forallb_forall in E. tauto.
    + split; [discriminate|]. intros [_ H]. apply forallb_forall in H. congruence.
  - split; [discriminate|]. intros [H _]. discriminate.
Qed.

Lemma check_values_ok rx c vs :
  is_right (check_values rx c vs) = true <-> forall v, In v vs -> typed rx c v /\ sat rx c v.
Proof.
  induction vs as [|v vs IH]; cbn [check_values].
  - split; [intros _ v []|auto].
  - destruct (check rx c v) as [[|]|e] eqn:E.
    + apply check_ok in E as [T H]. rewrite IH. split.
      * intros K w [<-|Hw]; [tauto|auto].
      * intros K w Hw. apply K. now right.
    + apply check_ok in E as [T H]. split; [discriminate|]. intro K.
      destruct (K v (or_introl eq_refl)) as [_ K']. apply H in K'. discriminate.
    + split; [discriminate|]. intro K. destruct (K v (or_introl eq_refl)) as [T _].
      destruct (check_typed _ _ _ T) as [b [E' _]]. congruence.
Qed.

Lemma is_string_ok v : is_string v = true <-> exists s, v = VString s.
Proof. destruct v; cbn; split; try discriminate; eauto; intros [? [=]]. Qed.
Lemma is_integer_ok v : is_integer v = true <-> exists s, v = VInteger s.
Proof. destruct v; cbn; split; try discriminate; eauto; intros [? [=]]. Qed.
Lemma is_date_ok v : is_date v = true <-> exists s, v = VDate s.
Proof. destruct v; cbn; split; try discriminate; eauto; intros [? [=]]. Qed.
Lemma is_bool_ok v : is_bool v = true <-> exists s, v = VBool s.
Proof. destruct v; cbn; split; try discriminate; eauto; intros [? [=]]. Qed.

Lemma type_conforms_ok rx t vs :
  is_right (type_conforms rx t vs) = true <-> allows rx t vs.
Proof.
  induction t as [|c|c|c|c|a IHa b IHb|a IHa b IHb|c]; cbn [type_conforms allows].
  - cbn. tauto.
  - rewrite sized_ok. split; intros [H K]; (split; [auto|]); intros v Hv; apply is_string_ok; auto.
  - rewrite sized_ok. split; intros [H K]; (split; [auto|]); intros v Hv; apply is_integer_ok; auto.
  - rewrite sized_ok. split; intros [H K]; (split; [auto|]); intros v Hv; apply is_date_ok; auto.
  - rewrite sized_ok. split; intros [H K]; (split; [auto|]); intros v Hv; apply is_bool_ok; auto.
  - destruct (type_conforms rx a vs), (type_conforms rx b vs); cbn [is_right] in *; tauto.
  - destruct (type_conforms rx a vs), (type_conforms rx b vs); cbn [is_right] in *; tauto.
  - apply check_values_ok.
Qed.

Lemma to_value_type_ok rx s vs : allows rx (to_value_type s) vs <-> asks rx s vs.
Proof.
  induction s as [a IHa b IHb|a IHa b IHb|t|t c]; cbn [to_value_type allows asks]; tauto.
Qed.

(** ** Maps *)

Section Maps.
  Context {A : Type}.

  Lemma lookup_in (m : list (name * A)) k x : lookup m k = Some x -> In (k, x) m.
  Proof.
    induction m as [|[k' y] m IH]; cbn [lookup]; [discriminate|].
    destruct (Nat.eqb_spec k k') as [->|]; [intros [= ->]; now left|intro H; right; auto].
  Qed.

  Lemma lookup_none (m : list (name * A)) k : lookup m k = None <-> ~ In k (map fst m).
  Proof.
    induction m as [|[k' y] m IH]; cbn [lookup map fst In]; [tauto|].
    destruct (Nat.eqb_spec k k') as [->|].
    - split; [discriminate|tauto].
    - rewrite IH. split; [intros H [E|E]; [congruence|auto]|tauto].
  Qed.

  Lemma lookup_nodup (m : list (name * A)) k x :
    NoDup (map fst m) -> (lookup m k = Some x <-> In (k, x) m).
  Proof.
    intro N. split; [apply lookup_in|].
    induction m as [|[k' y] m IH]; cbn [lookup]; [intros []|].
    cbn [map fst] in N. apply NoDup_cons_iff in N as [Nk N]. intros [[= -> ->]|H].
    - now rewrite Nat.eqb_refl.
    - destruct (Nat.eqb_spec k k') as [->|]; [|auto].
      destruct Nk. now apply (in_map fst) in H.
  Qed.

  Lemma lookup_put (m : list (name * A)) k x j :
    lookup (put m k x) j = if j =? k then Some x else lookup m j.
  Proof.
    induction m as [|[k' y] m IH]; cbn [put lookup]; [reflexivity|].
    destruct (Nat.eqb_spec k k') as [->|N]; cbn [lookup].
    - destruct (Nat.eqb_spec j k'); reflexivity.
    - rewrite IH. destruct (Nat.eqb_spec j k') as [->|]; [|reflexivity].
      destruct (Nat.eqb_spec k' k); congruence.
  Qed.

  Lemma put_keys (m : list (name * A)) k x j :
    In j (map fst (put m k x)) <-> j = k \/ In j (map fst m).
  Proof.
    induction m as [|[k' y] m IH]; cbn [put map fst In]; [intuition|].
    destruct (Nat.eqb_spec k k') as [->|N]; cbn [map fst In]; [intuition|]. rewrite IH. tauto.
  Qed.

  Lemma put_nodup (m : list (name * A)) k x : NoDup (map fst m) -> NoDup (map fst (put m k x)).
  Proof.
    induction m as [|[k' y] m IH]; cbn [put map fst]; intro N.
    - constructor; [auto|constructor].
    - apply NoDup_cons_iff in N as [Nk N]. destruct (Nat.eqb_spec k k') as [->|D]; cbn [map fst].
      + constructor; auto.
      + constructor; [|auto]. rewrite put_keys. intros [E|E]; congruence.
  Qed.
End Maps.

Lemma memb_in k l : memb k l = true <-> In k l.
Proof.
  unfold memb. rewrite existsb_exists. split.
  - intros [x [H E]]. apply Nat.eqb_eq in E. now subst.
  - intro H. exists k. split; [auto|apply Nat.eqb_refl].
Qed.

(** ** Record types *)

Lemma non_empty_false {A} (l : list A) : non_empty l = false <-> l = [].
Proof. destruct l; cbn; split; congruence. Qed.

Lemma filter_nil {A} (f : A -> bool) l : filter f l = [] <-> forall x, In x l -> f x = false.
Proof.
  induction l as [|a l IH]; cbn [filter]; [split; [intros _ x []|auto]|].
  destruct (f a) eqn:E.
  - split; [discriminate|]. intro H. rewrite (H a) in E by now left. discriminate.
  - rewrite IH. split; [intros H x [<-|Hx]; auto|intros H x Hx; apply H; now right].
Qed.

Lemma check_fields_ok rx open m r :
  is_right (check_fields rx open m r) = true <->
  forall k t, In (k, t) m ->
    match lookup r k with Some vs => allows rx t vs | None => open = true end.
Proof.
  induction m as [|[k t] m IH]; cbn [check_fields]; [split; [intros _ k t []|auto]|].
  destruct (lookup r k) as [vs|] eqn:E.
  - destruct (type_conforms rx t vs) as [es|ev] eqn:C.
    + split; [discriminate|]. intro H. specialize (H k t (or_introl eq_refl)). rewrite E in H.
      apply type_conforms_ok in H. rewrite C in H. discriminate.
    + rewrite IH. split.
      * intros H k' t' [[= <- <-]|Hin]; [|exact (H _ _ Hin)]. rewrite E. apply type_conforms_ok. now rewrite C.
      * intros H k' t' Hin. exact (H _ _ (or_intror Hin)).
  - destruct open; cbn [negb].
    + rewrite IH. split.
      * intros H k' t' [[= <- <-]|Hin]; [now rewrite E|exact (H _ _ Hin)].
      * intros H k' t' Hin. exact (H _ _ (or_intror Hin)).
    + split; [discriminate|]. intro H. specialize (H k t (or_introl eq_refl)). now rewrite E in H.
Qed.

Lemma has_lookup (r : record) k : has r k <-> In k (map fst r).
Proof.
  unfold has. rewrite in_map_iff. split.
  - intros [vs H]. now exists (k, vs).
  - intros [[k' vs] [<- H]]. now exists vs.
Qed.

Lemma rt_conforms_ok rx t r :
  good_record r -> (is_right (rt_conforms rx t r) = true <-> satisfies rx t r).
Proof.
  intro N. unfold rt_conforms, compare_keys.
  destruct (non_empty (filter (fun k => negb (memb k (record_keys r))) (rt_keys t))) eqn:M.
  - split; [discriminate|]. intros [H _]. exfalso.
    assert (Z : non_empty (filter (fun k => negb (memb k (record_keys r))) (rt_keys t)) = false).
    { apply non_empty_false, filter_nil. intros k Hk. apply negb_false_iff, memb_in.
      unfold rt_keys in Hk. apply in_map_iff in Hk as [[k' vt] [<- Hk]].
      destruct (H _ _ Hk) as [vs [Hv _]]. apply has_lookup. now exists vs. }
    congruence.
  - apply non_empty_false in M. pose proof (proj1 (filter_nil _ _) M) as M'. clear M.
    assert (KEY : forall k vt, In (k, vt) (rt_map t) -> In k (map fst r)).
    { intros k vt Hk. apply (in_map fst) in Hk. apply M' in Hk. apply negb_false_iff, memb_in in Hk. exact Hk. }
    assert (FIELDS : is_right (check_fields rx (rt_open t) (rt_map t) r) = true <->
                     forall k vt, In (k, vt) (rt_map t) -> exists vs, In (k, vs) r /\ allows rx vt vs).
    { rewrite check_fields_ok. split; intros H k vt Hk; specialize (H k vt Hk).
      - destruct (lookup r k) as [vs|] eqn:E.
        + exists vs. split; [now apply lookup_in|auto].
        + apply lookup_none in E. destruct E. eauto.
      - destruct H as [vs [Hv Ha]]. apply (lookup_nodup r k vs N) in Hv. now rewrite Hv. }
    destruct (non_empty (filter (fun k => negb (memb k (rt_keys t))) (record_keys r))) eqn:X; cbn [andb].
    + destruct (rt_open t) eqn:O; cbn [negb].
      * rewrite FIELDS. unfold satisfies. tauto.
      * split; [discriminate|]. intros [_ [H|H]]; [congruence|]. exfalso.
        assert (Z : non_empty (filter (fun k => negb (memb k (rt_keys t))) (record_keys r)) = false).
        { apply non_empty_false, filter_nil. intros k Hk. apply negb_false_iff, memb_in.
          apply has_lookup in Hk. destruct (H k Hk) as [vt Hv]. now apply (in_map fst) in Hv. }
        congruence.
    + apply non_empty_false in X. pose proof (proj1 (filter_nil _ _) X) as X'. clear X.
      rewrite FIELDS. unfold satisfies. split; [|tauto]. intro H. split; [exact H|]. right.
      intros k Hk. apply has_lookup in Hk. apply X' in Hk. apply negb_false_iff, memb_in in Hk.
      unfold rt_keys in Hk. apply in_map_iff in Hk as [[k' vt] [<- Hk]]. now exists vt.
Qed.

Lemma combine_left_lookup m other acc k :
  NoDup (map fst m) ->
  lookup (combine_left m other acc) k =
  match lookup m k with
  | Some t => Some (match lookup other k with Some u => TIntersection t u | None => t end)
  | None => lookup acc k
  end.
Proof.
  revert acc; induction m as [|[k' t] m IH]; intros acc N; cbn [combine_left lookup]; [reflexivity|].
  cbn [map fst] in N. apply NoDup_cons_iff in N as [Nk N]. rewrite IH by exact N.
  rewrite lookup_put. destruct (Nat.eqb_spec k k') as [->|D].
  - destruct (lookup m k') eqn:E; [|reflexivity]. apply lookup_in, (in_map fst) in E. contradiction.
  - reflexivity.
Qed.

Lemma combine_right_lookup m self acc k :
  NoDup (map fst m) ->
  lookup (combine_right m self acc) k =
  match lookup m k, lookup self k with
  | Some t, None => Some t
  | _, _ => lookup acc k
  end.
Proof.
  revert acc; induction m as [|[k' t] m IH]; intros acc N; cbn [combine_right lookup]; [reflexivity|].
  cbn [map fst] in N. apply NoDup_cons_iff in N as [Nk N]. rewrite IH by exact N.
  destruct (Nat.eqb_spec k k') as [->|D].
  - destruct (lookup m k') eqn:E.
    { apply lookup_in, (in_map fst) in E. contradiction. }
    destruct (lookup self k'); [reflexivity|]. rewrite lookup_put, Nat.eqb_refl. reflexivity.
  - destruct (lookup m k), (lookup self k), (lookup self k') eqn:E'; try reflexivity;
      rewrite lookup_put; destruct (Nat.eqb_spec k k'); congruence.
Qed.

Lemma combine_left_nodup m other acc : NoDup (map fst acc) -> NoDup (map fst (combine_left m other acc)).
Proof.
  revert acc; induction m as [|[k t] m IH]; intros acc N; cbn [combine_left]; [exact N|].
  apply IH, put_nodup, N.
Qed.

Lemma combine_right_nodup m self acc : NoDup (map fst acc) -> NoDup (map fst (combine_right m self acc)).
Proof.
  revert acc; induction m as [|[k t] m IH]; intros acc N; cbn [combine_right]; [exact N|].
  apply IH. destruct (lookup self k); [exact N|now apply put_nodup].
Qed.

Lemma rt_combine_good a b : good_rtype (rt_combine a b).
Proof. apply combine_right_nodup, combine_left_nodup. constructor. Qed.

Lemma rt_combine_lookup a b k :
  good_rtype a -> good_rtype b ->
  lookup (rt_map (rt_combine a b)) k =
  match lookup (rt_map a) k, lookup (rt_map b) k with
  | Some t, Some u => Some (TIntersection t u)
  | Some t, None => Some t
  | None, o => o
  end.
Proof.
  intros Na Nb. cbn [rt_combine rt_map]. rewrite combine_right_lookup by exact Nb.
  rewrite combine_left_lookup by exact Na.
  destruct (lookup (rt_map a) k), (lookup (rt_map b) k); reflexivity.
Qed.

(** A record type that says what the obligations say, openness aside. *)
Definition describes (rx : regexes) (t : rtype) (o : obligations) : Prop :=
  good_rtype t /\
  (forall k, In k (map fst (rt_map t)) <-> In k (map fst o)) /\
  (forall k vt, In (k, vt) (rt_map t) ->
     forall vs, allows rx vt vs <-> forall s, In (k, s) o -> asks rx s vs).

Lemma describes_new rx : describes rx rt_new [].
Proof.
  split; [constructor|]. split; [reflexivity|]. intros k vt [].
Qed.

Lemma describes_one rx k t : describes rx (rt_with rt_new k (to_value_type t)) [(k, t)].
Proof.
  cbn [rt_with rt_new rt_map rt_open put]. split; [|split].
  - repeat constructor. auto.
  - reflexivity.
  - intros k' vt [[= <- <-]|[]] vs. rewrite to_value_type_ok. split.
    + intros H s [[= <-]|[]]. exact H.
    + intro H. apply H. now left.
Qed.

Lemma describes_combine rx a b o1 o2 :
  describes rx a o1 -> describes rx b o2 -> describes rx (rt_combine a b) (o1 ++ o2).
Proof.
  intros [Na [Ka Ta]] [Nb [Kb Tb]]. split; [apply rt_combine_good|]. split.
  - intro k. rewrite map_app, in_app_iff, <- Ka, <- Kb.
    assert (D : forall m : list (name * vtype), In k (map fst m) <-> lookup m k <> None).
    { intro m. rewrite lookup_none. destruct (in_dec Nat.eq_dec k (map fst m)); tauto. }
    rewrite !D, rt_combine_lookup by assumption.
    destruct (lookup (rt_map a) k), (lookup (rt_map b) k);
      (split; [|intros [H|H]]); try congruence; try (now left); try (now right); auto.
  - intros k vt Hk vs. apply (lookup_nodup _ _ _ (rt_combine_good a b)) in Hk.
    rewrite rt_combine_lookup in Hk by assumption.
    assert (A : forall s, In (k, s) (o1 ++ o2) <-> In (k, s) o1 \/ In (k, s) o2).
    { intro s. apply in_app_iff. }
    assert (NO : forall (t : rtype) (o : obligations), (forall k, In k (map fst (rt_map t)) <-> In k (map fst o)) ->
                 lookup (rt_map t) k = None -> forall s, ~ In (k, s) o).
    { intros t o K E s Hs. apply lookup_none in E. apply E, K. now apply (in_map fst) in Hs. }
    destruct (lookup (rt_map a) k) as [t|] eqn:Ea; destruct (lookup (rt_map b) k) as [u|] eqn:Eb.
    + injection Hk as <-. cbn [allows].
      rewrite (Ta k t (lookup_in _ _ _ Ea)), (Tb k u (lookup_in _ _ _ Eb)).
      split.
      * intros [H1 H2] s Hs. apply A in Hs as [Hs|Hs]; auto.
      * intro H. split; intros s Hs; apply H, A; auto.
    + injection Hk as <-. rewrite (Ta k t (lookup_in _ _ _ Ea)). split.
      * intros H s Hs. apply A in Hs as [Hs|Hs]; [auto|]. now apply (NO b o2 Kb Eb) in Hs.
      * intros H s Hs. apply H, A. auto.
    + injection Hk as <-. rewrite (Tb k u (lookup_in _ _ _ Eb)). split.
      * intros H s Hs. apply A in Hs as [Hs|Hs]; [|auto]. now apply (NO a o1 Ka Ea) in Hs.
      * intros H s Hs. apply H, A. auto.
    + discriminate.
Qed.

Lemma describes_open rx t o : describes rx t o -> describes rx (rt_with_open t) o.
Proof. now destruct t. Qed.

Lemma describes_sound rx t o r c :
  describes rx t o -> rt_open t = false -> c_asks c = o ->
  satisfies rx t r -> right_record rx c r.
Proof.
  intros [N [K T]] O <- [H1 H2]. split.
  - intros k s Hs. assert (Hk : In k (map fst (rt_map t))).
    { apply K. now apply (in_map fst) in Hs. }
    apply in_map_iff in Hk as [[k' vt] [E Hk]]. cbn in E; subst k'.
    destruct (H1 _ _ Hk) as [vs [Hv Ha]]. exists vs. split; [auto|].
    now apply (proj1 (T _ _ Hk vs) Ha).
  - right. destruct H2 as [H2|H2]; [congruence|]. intros k Hk. destruct (H2 k Hk) as [vt Hv].
    apply (in_map fst), K, in_map_iff in Hv as [[k' s] [E Hs]]. cbn in E; subst k'. now exists s.
Qed.

Lemma describes_complete rx t o r c :
  good_record r -> describes rx t o -> c_asks c = o -> c_open_keys c = false ->
  right_record rx c r -> satisfies rx t r.
Proof.
  intros G [N [K T]] <- O [H1 H2]. split.
  - intros k vt Hk. assert (Hs : In k (map fst (c_asks c))).
    { apply K. now apply (in_map fst) in Hk. }
    apply in_map_iff in Hs as [[k' s] [E Hs]]. cbn in E; subst k'.
    destruct (H1 _ _ Hs) as [vs [Hv Ha]]. exists vs. split; [auto|].
    apply (T _ _ Hk vs). intros s' Hs'. destruct (H1 _ _ Hs') as [vs' [Hv' Ha']].
    apply (lookup_nodup r k vs G) in Hv. apply (lookup_nodup r k vs' G) in Hv'. congruence.
  - right. destruct H2 as [H2|H2]; [congruence|]. intros k Hk. destruct (H2 k Hk) as [s Hs].
    apply (in_map fst), K, in_map_iff in Hs as [[k' vt] [E Hv]]. cbn in E; subst k'. now exists vt.
Qed.

(** ** Label sets *)

Lemma label_insert_in l x y : In y (label_insert l x) <-> y = x \/ In y l.
Proof.
  induction l as [|z l IH]; cbn [label_insert In]; [intuition|].
  destruct (Nat.compare_spec x z) as [->|L|G]; cbn [In]; [intuition|intuition|]. rewrite IH. tauto.
Qed.

Lemma label_insert_sorted l x : StronglySorted lt l -> StronglySorted lt (label_insert l x).
Proof.
  induction l as [|z l IH]; cbn [label_insert]; intro H.
  - repeat constructor.
  - inversion H as [|? ? S F]; subst. destruct (Nat.compare_spec x z) as [->|L|G].
    + exact H.
    + constructor; [exact H|]. constructor; [exact L|]. eapply Forall_impl; [|exact F].
      intros w Hw; lia.
    + constructor; [auto|]. apply Forall_forall. intros w Hw. apply label_insert_in in Hw as [->|Hw]; [lia|].
      rewrite Forall_forall in F. auto.
Qed.

Lemma label_extend_in l xs y : In y (label_extend l xs) <-> In y l \/ In y xs.
Proof.
  revert l; induction xs as [|x xs IH]; intro l; cbn [label_extend fold_left]; [cbn; tauto|].
  change (fold_left label_insert xs (label_insert l x)) with (label_extend (label_insert l x) xs).
  rewrite IH, label_insert_in. cbn [In]. intuition.
Qed.

Lemma label_extend_sorted l xs : StronglySorted lt l -> StronglySorted lt (label_extend l xs).
Proof.
  revert l; induction xs as [|x xs IH]; intros l H; cbn [label_extend fold_left]; [exact H|].
  apply IH, label_insert_sorted, H.
Qed.

Lemma sorted_ext a b :
  StronglySorted lt a -> StronglySorted lt b -> (forall x, In x a <-> In x b) -> a = b.
Proof.
  revert b; induction a as [|x a IH]; intros b Sa Sb H.
  - destruct b as [|y b]; [reflexivity|]. destruct (proj2 (H y)). now left.
  - destruct b as [|y b]; [destruct (proj1 (H x)); now left|].
    inversion Sa as [|? ? Sa' Fa]; inversion Sb as [|? ? Sb' Fb]; subst.
    rewrite Forall_forall in Fa, Fb.
    assert (x = y).
    { destruct (proj1 (H x) (or_introl eq_refl)) as [E|E]; [auto|].
      destruct (proj2 (H y) (or_introl eq_refl)) as [E'|E']; [auto|].
      apply Fb in E. apply Fa in E'. lia. }
    subst y. f_equal. apply IH; [auto|auto|]. intro z. split; intro Hz.
    + destruct (proj1 (H z) (or_intror Hz)) as [->|E]; [apply Fa in Hz; lia|auto].
    + destruct (proj2 (H z) (or_intror Hz)) as [->|E]; [apply Fb in Hz; lia|auto].
Qed.

Lemma labels_eqb_eq a b : labels_eqb a b = true <-> a = b.
Proof.
  revert b; induction a as [|x a IH]; destruct b as [|y b]; cbn [labels_eqb];
    try (split; [discriminate|congruence]); [tauto|].
  rewrite andb_true_iff, Nat.eqb_eq, IH. split; [intros [-> ->]; auto|intros [= -> ->]; auto].
Qed.

Lemma has_labels_in ls l : has_labels ls l = true <-> In l ls.
Proof.
  unfold has_labels. rewrite existsb_exists. split.
  - intros [x [H E]]. apply labels_eqb_eq in E. now subst.
  - intro H. exists l. split; [auto|now apply labels_eqb_eq].
Qed.

Lemma labels_add_in ls l x : In x (labels_add ls l) <-> x = l \/ In x ls.
Proof.
  unfold labels_add. destruct (has_labels ls l) eqn:E.
  - apply has_labels_in in E. intuition. now subst.
  - rewrite in_app_iff. cbn [In]. intuition.
Qed.

Lemma labels_adds_in xs ls x : In x (fold_left labels_add xs ls) <-> In x xs \/ In x ls.
Proof.
  revert ls; induction xs as [|y xs IH]; intro ls; cbn [fold_left In]; [tauto|].
  rewrite IH, labels_add_in. intuition.
Qed.

Lemma combine_inner_in l1 s2 acc x :
  In x (fold_left (fun acc l2 => labels_add acc (label_extend l1 l2)) s2 acc) <->
  In x acc \/ exists l2, In l2 s2 /\ x = label_extend l1 l2.
Proof.
  revert acc; induction s2 as [|l2 s2 IH]; intro acc; cbn [fold_left].
  - split; [auto|]. intros [H|[l [[] _]]]; auto.
  - rewrite IH, labels_add_in. split.
    + intros [[->|H]|[l [H E]]]; [right; exists l2; split; [now left|auto]|auto|].
      right. exists l. split; [now right|auto].
    + intros [H|[l [[<-|H] E]]]; [auto|auto|]. right. eauto.
Qed.

Lemma combine_outer_in s1 s2 acc x :
  In x (fold_left (fun acc l1 => fold_left (fun acc l2 => labels_add acc (label_extend l1 l2)) s2 acc) s1 acc) <->
  In x acc \/ exists l1 l2, In l1 s1 /\ In l2 s2 /\ x = label_extend l1 l2.
Proof.
  revert acc; induction s1 as [|l1 s1 IH]; intro acc; cbn [fold_left].
  - split; [auto|]. intros [H|[l [l' [[] _]]]]; auto.
  - rewrite IH, combine_inner_in. split.
    + intros [[H|[l2 [H E]]]|[a [b [H [H' E]]]]]; [auto| |].
      * right. exists l1, l2. split; [now left|auto].
      * right. exists a, b. split; [now right|auto].
    + intros [H|[a [b [[<-|H] [H' E]]]]]; [auto| |].
      * left. right. eauto.
      * right. eauto.
Qed.

Lemma combine_label_sets_in s1 s2 x :
  In x (combine_label_sets s1 s2) <->
  (s1 = [] /\ In x s2) \/ (s2 = [] /\ In x s1) \/
  exists l1 l2, In l1 s1 /\ In l2 s2 /\ x = label_extend l1 l2.
Proof.
  destruct s1 as [|a s1]; [|destruct s2 as [|b s2]].
  - cbn [combine_label_sets]. split; [auto|]. intros [[_ H]|[[-> []]|[l1 [l2 [[] _]]]]]; auto.
  - cbn [combine_label_sets]. split; [auto|].
    intros [[H _]|[[_ H]|[l1 [l2 [_ [[] _]]]]]]; [discriminate|auto].
  - unfold combine_label_sets. rewrite combine_outer_in. split.
    + intros [[]|H]. auto.
    + intros [[H _]|[[H _]|H]]; [discriminate|discriminate|auto].
Qed.

Lemma combine_label_sets_nil s1 s2 : combine_label_sets s1 s2 = [] <-> s1 = [] /\ s2 = [].
Proof.
  split; [|intros [-> ->]; reflexivity]. intro H.
  assert (E : forall x, ~ In x (combine_label_sets s1 s2)) by (rewrite H; intros x []).
  destruct s1 as [|a s1]; [split; [reflexivity|exact H]|].
  destruct s2 as [|b s2]; [discriminate|].
  destruct (E (label_extend a b)). apply combine_label_sets_in. right. right.
  exists a, b. split; [now left|]. split; [now left|reflexivity].
Qed.

Lemma adds_nil a b :
  fold_left labels_add b (fold_left labels_add a []) = [] <-> a = [] /\ b = [].
Proof.
  split; [|intros [-> ->]; reflexivity]. intro H.
  assert (E : forall x, ~ In x (fold_left labels_add b (fold_left labels_add a []))) by (rewrite H; intros x []).
  split.
  - destruct a as [|x a]; [reflexivity|]. destruct (E x). rewrite !labels_adds_in. cbn. auto.
  - destruct b as [|x b]; [reflexivity|]. destruct (E x). rewrite !labels_adds_in. cbn. auto.
Qed.

Lemma combine_set_records_in s1 s2 x :
  s1 <> [] ->
  (In x (combine_set_records s1 s2) <->
   (s2 = [] /\ In x s1) \/ exists a b, In a s1 /\ In b s2 /\ x = rt_combine a b).
Proof.
  intro Hn. destruct s1 as [|a s1]; [congruence|]. clear Hn. destruct s2 as [|b s2].
  - cbn [combine_set_records]. split; [auto|]. intros [[_ H]|[u [v [_ [[] _]]]]]. auto.
  - unfold combine_set_records. rewrite in_flat_map. split.
    + intros [r [H K]]. apply in_map_iff in K as [v [<- K]]. right. eauto.
    + intros [[H _]|[u [v [H [K ->]]]]]; [discriminate|]. exists u. split; [auto|]. now apply in_map.
Qed.

Lemma combine_set_records_nonempty s1 s2 : s1 <> [] -> combine_set_records s1 s2 <> [].
Proof.
  intros H E. destruct s1 as [|a s1]; [congruence|]. destruct s2 as [|b s2]; [discriminate|].
  assert (K : In (rt_combine a b) (combine_set_records (a :: s1) (b :: s2))).
  { apply combine_set_records_in; [discriminate|]. right. exists a, b. split; [now left|]. split; [now left|auto]. }
  rewrite E in K. destruct K.
Qed.

Lemma content_conforms_ok rx ts r :
  good_record r ->
  (is_right (content_conforms rx ts r) = true <-> exists t, In t ts /\ satisfies rx t r).
Proof.
  intro G. induction ts as [|t ts IH]; cbn [content_conforms].
  - split; [discriminate|]. intros [t [[] _]].
  - destruct (is_right (rt_conforms rx t r)) eqn:E.
    + apply (rt_conforms_ok rx t r G) in E. cbn. split; [|auto]. intros _. exists t. split; [now left|exact E].
    + rewrite IH. split.
      * intros [u [H K]]. exists u. split; [now right|exact K].
      * intros [u [[<-|H] K]]; [|now exists u]. apply (rt_conforms_ok rx t r G) in K. congruence.
Qed.

Lemma base_conforms_ok rx b l r :
  good_record r ->
  (is_right (base_conforms rx b l r) = true <->
   In l (b_labels b) /\ exists t, In t (b_content b) /\ satisfies rx t r).
Proof.
  intro G. unfold base_conforms. destruct (has_labels (b_labels b) l) eqn:E; cbn [negb].
  - apply has_labels_in in E. rewrite content_conforms_ok by exact G. tauto.
  - split; [discriminate|]. intros [H _]. apply has_labels_in in H. congruence.
Qed.

(** ** Contents of specifications *)

Lemma pv_semantics_sound rx p t :
  solid p -> In t (pv_semantics p) -> exists o, picks p o /\ describes rx t o.
Proof.
  revert t; induction p as [a IHa b IHb|a IHa b IHb|k s|k s|]; intros t H; cbn [solid pv_semantics] in *.
  - unfold combine_semantics_sets. intro Ht. apply in_flat_map in Ht as [x [Hx Ht]].
    apply in_map_iff in Ht as [y [<- Hy]]. destruct H as [Sa Sb].
    destruct (IHa _ Sa Hx) as [o1 [P1 D1]]. destruct (IHb _ Sb Hy) as [o2 [P2 D2]].
    exists (o1 ++ o2). split; [now constructor|now apply describes_combine].
  - intro Ht. apply in_app_or in Ht as [Ht|Ht]; destruct H as [Sa Sb].
    + destruct (IHa _ Sa Ht) as [o [P D]]. exists o. split; [now constructor|auto].
    + destruct (IHb _ Sb Ht) as [o [P D]]. exists o. split; [now apply picks_right|auto].
  - intros [<-|[]]. eexists. split; [constructor|apply describes_one].
  - intros [<-|[<-|[]]]; eexists; (split; [|first [apply describes_one|apply describes_new]]); constructor.
  - destruct H.
Qed.

Lemma pv_semantics_complete rx p o :
  solid p -> picks p o -> exists t, In t (pv_semantics p) /\ describes rx t o.
Proof.
  intros H P; revert H; induction P as [a b o1 o2 P1 IH1 P2 IH2|a b o P IH|a b o P IH|k t|k t|k t|]; cbn [solid pv_semantics]; intro H.
  - destruct H as [Sa Sb]. destruct (IH1 Sa) as [x [Hx Dx]]. destruct (IH2 Sb) as [y [Hy Dy]].
    exists (rt_combine x y). split; [|now apply describes_combine].
    unfold combine_semantics_sets. apply in_flat_map. exists x. split; [auto|now apply in_map].
  - destruct H as [Sa Sb]. destruct (IH Sa) as [x [Hx Dx]]. exists x. split; [apply in_app_iff; auto|auto].
  - destruct H as [Sa Sb]. destruct (IH Sb) as [x [Hx Dx]]. exists x. split; [apply in_app_iff; auto|auto].
  - eexists. split; [now left|apply describes_one].
  - eexists. split; [now left|apply describes_one].
  - eexists. split; [right; now left|apply describes_new].
  - destruct H.
Qed.

Lemma solid_nonempty p : solid p -> pv_semantics p <> [].
Proof.
  induction p as [a IHa b IHb|a IHa b IHb|k s|k s|]; cbn [solid pv_semantics]; intro H; try discriminate.
  - destruct H as [Sa Sb]. specialize (IHa Sa). specialize (IHb Sb).
    destruct (pv_semantics a); [congruence|]. destruct (pv_semantics b); [congruence|]. discriminate.
  - destruct H as [Sa Sb]. specialize (IHa Sa). destruct (pv_semantics a); [congruence|]. discriminate.
  - destruct H.
Qed.

Lemma pspec_content p :
  b_content (pspec_semantics p) =
  match p with PClosed q => pv_semantics q | POpen q => map rt_with_open (pv_semantics q) end.
Proof. now destruct p. Qed.

(** ** Runs *)

Lemma get_node_ok sc t s : get_node_semantics sc t = Ok s <-> defined sc t s.
Proof.
  unfold get_node_semantics, defined. destruct (lookup (node_names sc) t) as [i|].
  - destruct (lookup (node_types sc) i) as [s'|] eqn:E.
    + split; [intros [= ->]; eauto|]. intros [j [[= <-] H]]. congruence.
    + split; [discriminate|]. intros [j [[= <-] H]]. congruence.
  - split; [discriminate|]. intros [j [H _]]. discriminate.
Qed.

Lemma defined_one sc t s s' : defined sc t s -> defined sc t s' -> s = s'.
Proof. intros H H'. apply get_node_ok in H, H'. congruence. Qed.

Lemma rbind_ok {A B} (x : run A) (f : A -> run B) b :
  rbind x f = Some (Ok b) <-> exists a, x = Some (Ok a) /\ f a = Some (Ok b).
Proof.
  destruct x as [[a|e]|]; cbn [rbind]; (split; [|intros [a' [H K]]; inversion H; subst; auto]);
    try discriminate; eauto.
Qed.

(** The runs that succeed, as a relation: fuel is gone. *)
Inductive yields (sc : schema) : spec -> base -> Prop :=
| yi_empty : yields sc LEmpty type_0
| yi_label l : yields sc (LLabel l) (from_label l)
| yi_ref t s b : defined sc t s -> yields sc s b -> yields sc (LRef t) b
| yi_optional s b : yields sc s b -> yields sc (LOptional s) (base_union b type_0)
| yi_and s1 s2 b1 b2 : yields sc s1 b1 -> yields sc s2 b2 -> yields sc (LAnd s1 s2) (base_combine b1 b2)
| yi_or s1 s2 b1 b2 : yields sc s1 b1 -> yields sc s2 b2 -> yields sc (LOr s1 s2) (base_union b1 b2)
| yi_open s b : yields sc s b -> yields sc (LOpen s) (base_with_open b)
| yi_content s p b : yields sc s b -> yields sc (LContent s p) (base_combine b (pspec_semantics p)).

Lemma semantics_yields sc fuel s b : semantics sc fuel s = Some (Ok b) -> yields sc s b.
Proof.
  revert s b; induction fuel as [|f IHf]; intro s;
    (induction s as [|l|t|s IH|s1 IH1 s2 IH2|s1 IH1 s2 IH2|s IH|s IH p]; intro b; cbn [semantics]; intro H;
     [injection H as <-; constructor
     |injection H as <-; constructor
     |
     |apply rbind_ok in H as [x [H E]]; injection E as <-; constructor; apply IH; exact H
     |apply rbind_ok in H as [x [H E]]; apply rbind_ok in E as [y [E E']]; injection E' as <-;
        constructor; [apply IH1; exact H|apply IH2; exact E]
     |apply rbind_ok in H as [x [H E]]; apply rbind_ok in E as [y [E E']]; injection E' as <-;
        constructor; [apply IH1; exact H|apply IH2; exact E]
     |apply rbind_ok in H as [x [H E]]; injection E as <-; constructor; apply IH; exact H
     |apply rbind_ok in H as [x [H E]]; injection E as <-; constructor; apply IH; exact H]).
  - destruct (get_node_semantics sc t); discriminate.
  - destruct (get_node_semantics sc t) as [s'|] eqn:E; [|discriminate].
    apply get_node_ok in E. econstructor; eauto.
Qed.

Lemma rbind_mono {A B} (x x' : run A) (f f' : A -> run B) y :
  (forall z, x = Some z -> x' = Some z) -> (forall a z, f a = Some z -> f' a = Some z) ->
  rbind x f = Some y -> rbind x' f' = Some y.
Proof.
  intros H K. destruct x as [[a|e]|]; cbn [rbind]; [| |discriminate].
  - rewrite (H _ eq_refl). cbn. apply K.
  - rewrite (H _ eq_refl). auto.
Qed.

Lemma semantics_more sc fuel fuel' s x :
  fuel <= fuel' -> semantics sc fuel s = Some x -> semantics sc fuel' s = Some x.
Proof.
  revert fuel' s x; induction fuel as [|f IHf]; intros fuel' s; destruct fuel' as [|f']; intros x L; try lia;
    revert x; (induction s as [|l|t|s IH|s1 IH1 s2 IH2|s1 IH1 s2 IH2|s IH|s IH p]; intro x; cbn [semantics];
      [auto|auto|
      |apply rbind_mono; [exact IH|auto]
      |apply rbind_mono; [exact IH1|intros a z; apply rbind_mono; [exact IH2|auto]]
      |apply rbind_mono; [exact IH1|intros a z; apply rbind_mono; [exact IH2|auto]]
      |apply rbind_mono; [exact IH|auto]
      |apply rbind_mono; [exact IH|auto]]).
  - auto.
  - destruct (get_node_semantics sc t); [discriminate|auto].
  - destruct (get_node_semantics sc t); [|auto]. apply IHf. lia.
Qed.

Lemma yields_semantics sc s b : yields sc s b -> exists fuel, semantics sc fuel s = Some (Ok b).
Proof.
  induction 1 as [|l|t s b D Y [f IH]|s b Y [f IH]|s1 s2 b1 b2 Y1 [f1 IH1] Y2 [f2 IH2]|s1 s2 b1 b2 Y1 [f1 IH1] Y2 [f2 IH2]|s b Y [f IH]|s p b Y [f IH]].
  - now exists 0.
  - now exists 0.
  - exists (S f). cbn [semantics]. apply get_node_ok in D. now rewrite D.
  - exists f. destruct f; cbn [semantics] in *; now rewrite IH.
  - exists (Nat.max f1 f2).
    apply (semantics_more _ _ (Nat.max f1 f2)) in IH1; [|lia].
    apply (semantics_more _ _ (Nat.max f1 f2)) in IH2; [|lia].
    destruct (Nat.max f1 f2); cbn [semantics] in *; rewrite IH1; cbn [rbind]; now rewrite IH2.
  - exists (Nat.max f1 f2).
    apply (semantics_more _ _ (Nat.max f1 f2)) in IH1; [|lia].
    apply (semantics_more _ _ (Nat.max f1 f2)) in IH2; [|lia].
    destruct (Nat.max f1 f2); cbn [semantics] in *; rewrite IH1; cbn [rbind]; now rewrite IH2.
  - exists f. destruct f; cbn [semantics] in *; now rewrite IH.
  - exists f. destruct f; cbn [semantics] in *; now rewrite IH.
Qed.
