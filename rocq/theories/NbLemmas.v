(* Lemmas about arcs, the cache of endpoints and merged data. *)
From Coq Require Import List String Bool Lia.
Import ListNotations.
From Verif Require Import NbModel NbSpec.
Open Scope list_scope.

Lemma same_subject_true a b : same_subject a b = true <-> a = b.
Proof. unfold same_subject. destruct (subject_dec a b); split; congruence. Qed.
Lemma same_term_true a b : same_term a b = true <-> a = b.
Proof. unfold same_term. destruct (term_dec a b); split; congruence. Qed.
Lemma member_true p ps : member p ps = true <-> In p ps.
Proof.
  unfold member. rewrite existsb_exists. split.
  - intros (x & H & E). apply String.eqb_eq in E. now subst.
  - intros H. exists p. split; [exact H|]. apply String.eqb_refl.
Qed.
Lemma member_false p ps : member p ps = false <-> ~ In p ps.
Proof. rewrite <- member_true. destruct (member p ps); split; congruence. Qed.
Lemma same_triple_true a b : same_triple a b = true <-> a = b.
Proof.
  unfold same_triple. rewrite !andb_true_iff, same_subject_true, String.eqb_eq, same_term_true.
  destruct a, b; cbn. split; [intros [[-> ->] ->]; reflexivity|intros [= -> -> ->]; auto].
Qed.

(* Graphs in memory *)
Lemma matching_right g s p o t :
  In t (matching g s p o) <-> In t g /\ suits s (t_s t) /\ suits p (t_p t) /\ suits o (t_o t).
Proof.
  unfold suits, matching, objects_for, subjects_for, for_subject, for_predicate, for_object.
  destruct s as [s|], p as [p|], o as [o|].
  - destruct (existsb _ g) eqn:E.
    + apply existsb_exists in E. destruct E as (x & H & E). apply same_triple_true in E. subst x. cbn. split.
      * intros [<-|[]]. cbn. auto.
      * intros (_ & [A|[= A]] & [B|[= B]] & [C|[= C]]); try discriminate. left. destruct t; cbn in *. congruence.
    + cbn. split; [intros []|]. intros (H & [A|[= A]] & [B|[= B]] & [C|[= C]]); try discriminate.
      assert (X : existsb (same_triple {| t_s := s; t_p := p; t_o := o |}) g = true).
      { apply existsb_exists. exists t. split; [exact H|]. apply same_triple_true. destruct t; cbn in *. congruence. }
      congruence.
  - rewrite in_map_iff. split.
    + intros (x & <- & H). apply in_map_iff in H. destruct H as (y & <- & H). apply filter_In in H. destruct H as [H E].
      apply andb_true_iff in E. destruct E as [E1 E2]. apply same_subject_true in E1. apply String.eqb_eq in E2.
      cbn. destruct y; cbn in *. subst. auto 6.
    + intros (H & [A|[= A]] & [B|[= B]] & _); try discriminate. exists (t_o t). split; [destruct t; cbn in *; congruence|].
      apply in_map. apply filter_In. split; [exact H|]. apply andb_true_iff. rewrite same_subject_true, String.eqb_eq. auto.
  - rewrite !filter_In, same_term_true, same_subject_true. split.
    + intros [[H ->] ->]. auto 6.
    + intros (H & [A|[= A]] & _ & [C|[= C]]); try discriminate. auto.
  - rewrite filter_In, same_subject_true. split.
    + intros [H ->]. auto 6.
    + intros (H & [A|[= A]] & _); try discriminate. auto.
  - rewrite in_map_iff. split.
    + intros (x & <- & H). apply in_map_iff in H. destruct H as (y & <- & H). apply filter_In in H. destruct H as [H E].
      apply andb_true_iff in E. destruct E as [E1 E2]. apply String.eqb_eq in E1. apply same_term_true in E2.
      cbn. destruct y; cbn in *. subst. auto 6.
    + intros (H & _ & [B|[= B]] & [C|[= C]]); try discriminate. exists (t_s t). split; [destruct t; cbn in *; congruence|].
      apply in_map. apply filter_In. split; [exact H|]. apply andb_true_iff. rewrite same_term_true, String.eqb_eq. auto.
  - rewrite filter_In, String.eqb_eq. split.
    + intros [H ->]. auto 6.
    + intros (H & _ & [B|[= B]] & _); try discriminate. auto.
  - rewrite filter_In, same_term_true. split.
    + intros [H ->]. auto 6.
    + intros (H & _ & _ & [C|[= C]]); try discriminate. auto.
  - split; [auto 6|]. intros [H _]. exact H.
Qed.
Lemma NoDup_map_on {A B} (f : A -> B) l : (forall x y, In x l -> In y l -> f x = f y -> x = y) -> NoDup l -> NoDup (List.map f l).
Proof.
  intros I N. induction N as [|x l H N IH]; cbn; constructor.
  - intros X. apply in_map_iff in X. destruct X as (y & E & Y). apply H. rewrite <- (I y x (or_intror Y) (or_introl eq_refl) E). exact Y.
  - apply IH. intros a b Ha Hb. apply I; right; assumption.
Qed.
Lemma matching_once g s p o : NoDup g -> NoDup (matching g s p o).
Proof.
  intros N. unfold matching, objects_for, subjects_for, for_subject, for_predicate, for_object.
  destruct s as [s|], p as [p|], o as [o|]; auto using NoDup_filter.
  - destruct (existsb _ g); repeat constructor. intros [].
  - rewrite map_map. apply NoDup_map_on; [|apply NoDup_filter; exact N].
    intros x y X Y [= E]. apply filter_In in X, Y. destruct X as [_ X], Y as [_ Y].
    apply andb_true_iff in X, Y. destruct X as [X1 X2], Y as [Y1 Y2].
    apply same_subject_true in X1, Y1. apply String.eqb_eq in X2, Y2. destruct x, y; cbn in *. congruence.
  - rewrite map_map. apply NoDup_map_on; [|apply NoDup_filter; exact N].
    intros x y X Y [= E]. apply filter_In in X, Y. destruct X as [_ X], Y as [_ Y].
    apply andb_true_iff in X, Y. destruct X as [X1 X2], Y as [Y1 Y2].
    apply same_term_true in X2, Y2. apply String.eqb_eq in X1, Y1. destruct x, y; cbn in *. congruence.
Qed.

(* Maps of arcs *)
Definition holds (m : arcs) (p : string) (o : term) : Prop := exists os, arc_at p m = Some os /\ In o os.
Definition tidy (m : arcs) : Prop := NoDup (List.map fst m) /\ forall p os, In (p, os) m -> NoDup os.
Lemma arc_at_in p m os : arc_at p m = Some os -> In (p, os) m.
Proof.
  induction m as [|[q qs] m IH]; cbn; [discriminate|]. destruct (String.eqb p q) eqn:E.
  - intros [= ->]. apply String.eqb_eq in E. subst. now left.
  - intros H. right. auto.
Qed.
Lemma in_arc_at p m os : NoDup (List.map fst m) -> In (p, os) m -> arc_at p m = Some os.
Proof.
  induction m as [|[q qs] m IH]; cbn; [intros _ []|]. intros N [[= -> ->]|H]; inversion N as [|? ? X Y]; subst.
  - now rewrite String.eqb_refl.
  - destruct (String.eqb p q) eqn:E; [|auto]. apply String.eqb_eq in E. subst. exfalso. apply X. apply in_map_iff. exists (q, os). auto.
Qed.
Lemma arc_at_none p m : arc_at p m = None <-> ~ In p (List.map fst m).
Proof.
  induction m as [|[q qs] m IH]; cbn; [tauto|]. destruct (String.eqb p q) eqn:E.
  - apply String.eqb_eq in E. subst. split; [discriminate|]. intros H. exfalso. apply H. now left.
  - apply String.eqb_neq in E. rewrite IH. split; [intros H [X|X]; [congruence|auto]|tauto].
Qed.
Lemma insert_set_in o x l : In x (insert_set o l) <-> x = o \/ In x l.
Proof.
  unfold insert_set. destruct (in_dec term_dec o l).
  - split; [auto|intros [->|H]; assumption].
  - rewrite in_app_iff. cbn. split; [intros [H|[<-|[]]]; auto|intros [->|H]; auto].
Qed.
Lemma insert_set_once o l : NoDup l -> NoDup (insert_set o l).
Proof.
  unfold insert_set. destruct (in_dec term_dec o l) as [H|H]; [auto|]. intros N. revert H. induction N as [|x l X N IH]; cbn; intros H.
  - repeat constructor. intros [].
  - constructor; [|apply IH; tauto]. rewrite in_app_iff. cbn. intros [Y|[Y|[]]]; [tauto|]. subst. tauto.
Qed.
Lemma insert_arc_at p o m q :
  arc_at q (insert_arc p o m) = if String.eqb q p then Some (match arc_at p m with Some os => insert_set o os | None => [o] end) else arc_at q m.
Proof.
  induction m as [|[r rs] m IH]; cbn; [reflexivity|].
  destruct (String.eqb p r) eqn:E; cbn.
  - apply String.eqb_eq in E. subst r. destruct (String.eqb q p); reflexivity.
  - rewrite IH. destruct (String.eqb q r) eqn:F; [|reflexivity].
    apply String.eqb_eq in F. subst r. rewrite String.eqb_sym, E. reflexivity.
Qed.
Lemma insert_arc_keys p o m q : In q (List.map fst (insert_arc p o m)) <-> q = p \/ In q (List.map fst m).
Proof.
  induction m as [|[r rs] m IH]; cbn; [intuition|]. destruct (String.eqb p r) eqn:E; cbn.
  - apply String.eqb_eq in E. subst. intuition.
  - rewrite IH. tauto.
Qed.
Lemma insert_arc_holds p o m q x : holds (insert_arc p o m) q x <-> (q = p /\ x = o) \/ holds m q x.
Proof.
  unfold holds. rewrite insert_arc_at. destruct (String.eqb q p) eqn:E.
  - apply String.eqb_eq in E. subst q. destruct (arc_at p m) as [os|] eqn:F.
    + split.
      * intros (? & [= <-] & H). apply insert_set_in in H. destruct H as [->|H]; eauto.
      * intros [[_ ->]|(? & [= <-] & H)]; eexists; (split; [reflexivity|]); apply insert_set_in; auto.
    + split.
      * intros (? & [= <-] & [<-|[]]). auto.
      * intros [[_ ->]|(? & [=] & _)]. exists [o]. cbn. auto.
  - apply String.eqb_neq in E. split; [auto|]. intros [[X _]|H]; [contradiction|exact H].
Qed.
Lemma insert_arc_tidy p o m : tidy m -> tidy (insert_arc p o m).
Proof.
  intros [N S]. split.
  - clear S. induction m as [|[r rs] m IH]; cbn.
    + repeat constructor. intros [].
    + inversion N; subst. destruct (String.eqb p r) eqn:E; cbn; [exact N|]. constructor; [|auto].
      rewrite insert_arc_keys. intros [->|X]; [|auto]. rewrite String.eqb_refl in E. discriminate.
  - clear N. induction m as [|[r rs] m IH]; cbn; intros q os.
    + intros [[= <- <-]|[]]. repeat constructor. intros [].
    + destruct (String.eqb p r) eqn:E; cbn; intros [[= <- <-]|H].
      * apply insert_set_once. apply (S r). now left.
      * apply (S q). now right.
      * apply (S r). now left.
      * apply (IH (fun q os X => S q os (or_intror X)) q os H).
Qed.
Lemma arc_at_app p m n : arc_at p (m ++ n) = match arc_at p m with Some os => Some os | None => arc_at p n end.
Proof. induction m as [|[r rs] m IH]; cbn; [reflexivity|]. destruct (String.eqb p r); auto. Qed.
Lemma touch_at p m q : arc_at q (touch p m) = match arc_at q m with Some os => Some os | None => if String.eqb q p then Some [] else None end.
Proof.
  unfold touch. destruct (arc_at p m) as [os|] eqn:E.
  - destruct (arc_at q m) eqn:F; [reflexivity|]. destruct (String.eqb q p) eqn:G; [|reflexivity].
    apply String.eqb_eq in G. congruence.
  - rewrite arc_at_app. cbn. reflexivity.
Qed.
Lemma touch_holds p m q x : holds (touch p m) q x <-> holds m q x.
Proof.
  unfold holds. rewrite touch_at. destruct (arc_at q m); [reflexivity|]. destruct (String.eqb q p); split; intros (os & [= <-] & H); destruct H.
Qed.
Lemma touch_tidy p m : tidy m -> tidy (touch p m).
Proof.
  intros [N S]. unfold touch. destruct (arc_at p m) eqn:E; [split; assumption|]. apply arc_at_none in E. split.
  - rewrite map_app. cbn. clear S. induction m as [|[r rs] m IH]; cbn in *; [repeat constructor; intros []|].
    inversion N; subst. constructor; [|apply IH; tauto]. rewrite in_app_iff. cbn. intros [X|[X|[]]]; [auto|]. subst. tauto.
  - intros q os H. apply in_app_iff in H. destruct H as [H|[[= <- <-]|[]]]; [eauto|constructor].
Qed.
Lemma extend_holds p os m q x : holds (extend p os m) q x <-> (q = p /\ In x os) \/ holds m q x.
Proof.
  unfold extend. rewrite <- (touch_holds p m). generalize (touch p m). clear m. induction os as [|o os IH]; intros m; cbn.
  - tauto.
  - rewrite IH, insert_arc_holds. intuition (subst; auto).
Qed.
Lemma extend_tidy p os m : tidy m -> tidy (extend p os m).
Proof.
  intros T. unfold extend. generalize (touch_tidy p m T). generalize (touch p m). clear m T.
  induction os as [|o os IH]; intros m T; cbn; [exact T|]. apply IH. now apply insert_arc_tidy.
Qed.
Lemma no_arcs p o : ~ holds [] p o.
Proof. intros (os & [=] & _). Qed.
Lemma tidy_nil : tidy [].
Proof. split; [constructor|intros p os []]. Qed.
Lemma insert_all_holds (l : list (string * term)) m q x :
  holds (fold_left (fun m x => insert_arc (fst x) (snd x) m) l m) q x <-> In (q, x) l \/ holds m q x.
Proof.
  revert m. induction l as [|[p o] l IH]; intros m; cbn; [tauto|]. rewrite IH, insert_arc_holds. cbn.
  split; [intros [H|[[-> ->]|H]]; auto|intros [[[= -> ->]|H]|H]; auto].
Qed.
Lemma insert_all_tidy (l : list (string * term)) m : tidy m -> tidy (fold_left (fun m x => insert_arc (fst x) (snd x) m) l m).
Proof. revert m. induction l as [|[p o] l IH]; intros m T; cbn; [exact T|]. apply IH. now apply insert_arc_tidy. Qed.
Lemma insert_all_at (l : list (string * term)) m q :
  (arc_at q m <> None \/ exists x, In (q, x) l) <-> arc_at q (fold_left (fun m x => insert_arc (fst x) (snd x) m) l m) <> None.
Proof.
  revert m. induction l as [|[p o] l IH]; intros m; cbn; [firstorder|]. rewrite <- IH, insert_arc_at.
  destruct (String.eqb q p) eqn:E.
  - apply String.eqb_eq in E. subst. split; [left; discriminate|]. intros _. right. eauto.
  - apply String.eqb_neq in E. split.
    + intros [H|(x & [[= -> ->]|H])]; [auto|congruence|eauto].
    + intros [H|(x & H)]; eauto.
Qed.
Lemma touch_all_holds ps m q x : holds (fold_left (fun m p => touch p m) ps m) q x <-> holds m q x.
Proof. revert m. induction ps as [|p ps IH]; intros m; cbn; [tauto|]. now rewrite IH, touch_holds. Qed.
Lemma touch_all_tidy ps m : tidy m -> tidy (fold_left (fun m p => touch p m) ps m).
Proof. revert m. induction ps as [|p ps IH]; intros m T; cbn; [exact T|]. apply IH. now apply touch_tidy. Qed.
Lemma touch_all_at ps m q : (arc_at q m <> None \/ In q ps) <-> arc_at q (fold_left (fun m p => touch p m) ps m) <> None.
Proof.
  revert m. induction ps as [|p ps IH]; intros m; cbn; [tauto|]. rewrite <- IH, touch_at. destruct (arc_at q m).
  - split; intros _; left; discriminate.
  - destruct (String.eqb q p) eqn:E.
    + apply String.eqb_eq in E. subst. split; [left; discriminate|auto].
    + apply String.eqb_neq in E. split; [intros [H|[H|H]]; [auto|congruence|auto]|tauto].
Qed.
Lemma extend_all_holds (m : arcs) r q x : NoDup (List.map fst m) ->
  (holds (fold_left (fun r x => extend (fst x) (snd x) r) m r) q x <-> holds m q x \/ holds r q x).
Proof.
  revert r. induction m as [|[p os] m IH]; intros r N; cbn [fold_left fst snd].
  - split; [auto|]. intros [H|H]; [now apply no_arcs in H|exact H].
  - inversion N as [|? ? X Y]; subst. rewrite (IH _ Y), extend_holds. 
    assert (Q : holds ((p, os) :: m) q x <-> if String.eqb q p then In x os else holds m q x).
    { unfold holds. cbn. destruct (String.eqb q p); [|reflexivity]. split; [intros (? & [= <-] & H); exact H|intros H; eauto]. }
    rewrite Q. clear Q. destruct (String.eqb q p) eqn:E.
    + apply String.eqb_eq in E. subst q. assert (Z : ~ holds m p x).
      { intros (os' & H & _). apply arc_at_in in H. apply X. apply in_map_iff. exists (p, os'). auto. }
      split.
      * intros [H|[[_ H]|H]]; [contradiction|auto|auto].
      * intros [H|H]; auto.
    + apply String.eqb_neq in E. split.
      * intros [H|[[H _]|H]]; [auto|congruence|auto].
      * intros [H|H]; auto.
Qed.
Lemma extend_all_tidy (m : arcs) r : tidy r -> tidy (fold_left (fun r x => extend (fst x) (snd x) r) m r).
Proof. revert r. induction m as [|[p os] m IH]; intros r T; cbn; [exact T|]. apply IH. now apply extend_tidy. Qed.

Lemma listed_in k m p o : (forall a b, k a = k b -> a = b) -> tidy m -> (In (p, o) (listed k m) <-> exists q, p = k q /\ holds m q o).
Proof.
  intros K [N _]. unfold listed. rewrite in_flat_map. split.
  - intros ([q os] & H & X). apply in_map_iff in X. cbn in X. destruct X as (y & [= <- <-] & Y). exists q. split; [reflexivity|].
    exists os. split; [now apply in_arc_at|exact Y].
  - intros (q & -> & os & H & Y). exists (q, os). split; [now apply arc_at_in|]. apply in_map_iff. exists o. auto.
Qed.
Lemma NoDup_join {A} (l k : list A) : NoDup l -> NoDup k -> (forall x, In x l -> ~ In x k) -> NoDup (l ++ k).
Proof.
  intros N M D. induction N as [|x l H N IH]; cbn; [exact M|]. constructor.
  - rewrite in_app_iff. intros [X|X]; [auto|]. apply (D x); [now left|exact X].
  - apply IH. intros y Y. apply D. now right.
Qed.
Lemma listed_once k m : (forall a b, k a = k b -> a = b) -> tidy m -> NoDup (listed k m).
Proof.
  intros K [N S]. unfold listed. induction m as [|[q os] m IH]; cbn; [constructor|]. inversion N as [|? ? X Y]; subst.
  apply NoDup_join.
  - apply NoDup_map_on; [|apply (S q); now left]. intros a b _ _ [= E]. exact E.
  - apply IH; [exact Y|]. intros p qs H. apply (S p). now right.
  - intros x H J. apply in_map_iff in H. destruct H as (o & <- & _). apply in_flat_map in J. destruct J as ([r rs] & J & H).
    apply in_map_iff in H. cbn in H. destruct H as (o' & [= E _] & _). apply K in E. subst r. apply X. apply in_map_iff. exists (q, rs). auto.
Qed.

(* Triples to arcs *)
Lemma outgoing_from_right ts preds :
  (forall p o, holds (fst (outgoing_from ts preds)) p o <-> In p preds /\ exists t, In t ts /\ t_p t = p /\ t_o t = o) /\
  tidy (fst (outgoing_from ts preds)) /\
  (forall p, In p (snd (outgoing_from ts preds)) <-> ~ In p preds /\ exists t, In t ts /\ t_p t = p).
Proof.
  unfold outgoing_from.
  set (f := fun (r : arcs * list string) t => _).
  assert (X : forall ts r, tidy (fst r) ->
    (forall p o, holds (fst (fold_left f ts r)) p o <-> holds (fst r) p o \/ In p preds /\ exists t, In t ts /\ t_p t = p /\ t_o t = o) /\
    tidy (fst (fold_left f ts r)) /\
    (forall p, In p (snd (fold_left f ts r)) <-> In p (snd r) \/ ~ In p preds /\ exists t, In t ts /\ t_p t = p)).
  { clear ts. induction ts as [|t ts IH]; intros r T; cbn [fold_left].
    - split; [|split; [exact T|]]; firstorder.
    - assert (T' : tidy (fst (f r t))). { unfold f. destruct (member (t_p t) preds); cbn; [now apply insert_arc_tidy|exact T]. }
      destruct (IH (f r t) T') as (A & B & C). split; [|split; [exact B|]].
      + intros p o. rewrite A. unfold f. destruct (member (t_p t) preds) eqn:E; cbn [fst].
        * apply member_true in E. rewrite insert_arc_holds. split.
          -- intros [[[-> ->]|H]|(H & x & I & J)]; [right; split; [exact E|exists t; cbn; auto]|auto|right; split; [exact H|exists x; cbn; tauto]].
          -- intros [H|(H & x & [<-|I] & <- & <-)]; [auto|auto|right; split; [exact H|exists x; auto]].
        * apply member_false in E. split.
          -- intros [H|(H & x & I & J)]; [auto|right; split; [exact H|exists x; cbn; tauto]].
          -- intros [H|(H & x & [<-|I] & <- & <-)]; [auto|contradiction|right; split; [exact H|exists x; auto]].
      + intros p. rewrite C. unfold f. destruct (member (t_p t) preds) eqn:E; cbn [snd].
        * apply member_true in E. split.
          -- intros [H|(H & x & I & J)]; [auto|right; split; [exact H|exists x; cbn; tauto]].
          -- intros [H|(H & x & [<-|I] & <-)]; [auto|contradiction|right; split; [exact H|exists x; auto]].
        * apply member_false in E. rewrite in_app_iff. split.
          -- intros [[H|[<-|[]]]|(H & x & I & J)]; [auto|right; split; [exact E|exists t; cbn; auto]|right; split; [exact H|exists x; cbn; tauto]].
          -- intros [H|(H & x & [<-|I] & <-)]; [auto|left; right; cbn; auto|right; split; [exact H|exists x; auto]]. }
  destruct (X ts ([], []) tidy_nil) as (A & B & C). split; [|split; [exact B|]].
  - intros p o. rewrite A. cbn. split; [intros [H|H]; [now apply no_arcs in H|exact H]|auto].
  - intros p. rewrite C. cbn. tauto.
Qed.
Lemma incoming_from_right ts preds :
  (forall p o, holds (incoming_from ts preds) p o <-> In p preds /\ exists t, In t ts /\ t_p t = p /\ TSub (t_s t) = o) /\
  tidy (incoming_from ts preds).
Proof.
  unfold incoming_from.
  set (f := fun (m : arcs) t => _).
  assert (X : forall ts r, tidy r ->
    (forall p o, holds (fold_left f ts r) p o <-> holds r p o \/ In p preds /\ exists t, In t ts /\ t_p t = p /\ TSub (t_s t) = o) /\
    tidy (fold_left f ts r)).
  { clear ts. induction ts as [|t ts IH]; intros r T; cbn [fold_left].
    - split; [|exact T]; firstorder.
    - assert (T' : tidy (f r t)). { unfold f. destruct (member (t_p t) preds); cbn; [now apply insert_arc_tidy|exact T]. }
      destruct (IH (f r t) T') as (A & B). split; [|exact B].
      intros p o. rewrite A. unfold f. destruct (member (t_p t) preds) eqn:E.
      * apply member_true in E. rewrite insert_arc_holds. split.
        -- intros [[[-> ->]|H]|(H & x & I & J)]; [right; split; [exact E|exists t; cbn; auto]|auto|right; split; [exact H|exists x; cbn; tauto]].
        -- intros [H|(H & x & [<-|I] & <- & <-)]; [auto|auto|right; split; [exact H|exists x; auto]].
      * apply member_false in E. split.
        -- intros [H|(H & x & I & J)]; [auto|right; split; [exact H|exists x; cbn; tauto]].
        -- intros [H|(H & x & [<-|I] & <- & <-)]; [auto|contradiction|right; split; [exact H|exists x; auto]]. }
  destruct (X ts [] tidy_nil) as (A & B). split; [|exact B].
  intros p o. rewrite A. split; [intros [H|H]; [now apply no_arcs in H|exact H]|auto].
Qed.

(* The cache *)
Definition answers (g : graph) (s : subject) (p : string) (o : term) : Prop :=
  exists t, In t g /\ fits_subject s (t_s t) = true /\ t_p t = p /\ t_o t = o.
Definition cache_right (e : endpoint) : Prop :=
  forall s m, cached s (e_cache e) = Some m -> tidy m /\ forall p, arc_at p m <> None -> forall o, holds m p o <-> answers (e_graph e) s p o.
Lemma cached_put s m c s' : cached s' (put_cache s m c) = if subject_dec s' s then Some m else cached s' c.
Proof.
  induction c as [|[r n] c IH]; cbn; [reflexivity|]. destruct (subject_dec s r) as [<-|E]; cbn.
  - destruct (subject_dec s' s); reflexivity.
  - rewrite IH. destruct (subject_dec s' r) as [->|F]; [|reflexivity]. destruct (subject_dec r s); [congruence|reflexivity].
Qed.
Lemma solutions_in g s ps p o : In (p, o) (solutions g s ps) <-> In p ps /\ answers g s p o.
Proof.
  unfold solutions, answers. rewrite in_map_iff. split.
  - intros (t & [= <- <-] & H). apply filter_In in H. destruct H as [H E]. apply andb_true_iff in E. destruct E as [E F].
    apply member_true in F. split; [exact F|]. exists t. auto.
  - intros (P & t & H & E & <- & <-). exists t. split; [reflexivity|]. apply filter_In. split; [exact H|].
    apply andb_true_iff. split; [exact E|]. now apply member_true.
Qed.
Lemma extend_known_holds known preds r q x :
  holds (fold_left (fun r p => match arc_at p known with Some os => extend p os r | None => r end) preds r) q x <->
  holds r q x \/ In q preds /\ holds known q x.
Proof.
  revert r. induction preds as [|p preds IH]; intros r; cbn; [tauto|]. rewrite IH. destruct (arc_at p known) as [os|] eqn:E.
  - rewrite extend_holds. split.
    + intros [[[-> H]|H]|[H I]]; [right; split; [auto|exists os; auto]|auto|tauto].
    + intros [H|[[->|H] I]]; [auto| |auto]. destruct I as (os' & F & I). rewrite E in F. injection F as <-. auto.
  - split.
    + tauto.
    + intros [H|[[->|H] I]]; [auto| |auto]. destruct I as (os' & F & I). congruence.
Qed.
Lemma extend_known_tidy known preds r :
  tidy r -> tidy (fold_left (fun r p => match arc_at p known with Some os => extend p os r | None => r end) preds r).
Proof.
  revert r. induction preds as [|p preds IH]; intros r T; cbn; [exact T|]. apply IH. destruct (arc_at p known); [now apply extend_tidy|exact T].
Qed.

Definition unknown (known : arcs) (preds : list string) : list string :=
  filter (fun p => match arc_at p known with Some _ => false | None => true end) preds.
Lemma unknown_in known preds p : In p (unknown known preds) <-> In p preds /\ arc_at p known = None.
Proof. unfold unknown. rewrite filter_In. destruct (arc_at p known); split; intros [? ?]; split; congruence. Qed.

Lemma endpoint_outgoing_right e s preds : cache_right e ->
  let (r, e') := endpoint_outgoing e s preds in
  e_graph e' = e_graph e /\ e_up e' = e_up e /\ cache_right e' /\
  (e_up e = true -> r <> None) /\
  forall m rem, r = Some (m, rem) -> rem = [] /\ tidy m /\ forall p o, holds m p o <-> In p preds /\ answers (e_graph e) s p o.
Proof.
  intros C. unfold endpoint_outgoing. destruct preds as [|p0 preds0].
  { split; [reflexivity|split; [reflexivity|split; [exact C|split; [discriminate|]]]].
    intros m rem [= <- <-]. split; [reflexivity|split; [apply tidy_nil|]].
    intros p o. split; [intros H; now apply no_arcs in H|intros [[] _]]. }
  set (preds := p0 :: preds0). clearbody preds. clear p0 preds0.
  set (known := match cached s (e_cache e) with Some m => m | None => [] end).
  fold (unknown known preds).
  assert (K : tidy known /\ forall p, arc_at p known <> None -> forall o, holds known p o <-> answers (e_graph e) s p o).
  { unfold known. destruct (cached s (e_cache e)) as [m|] eqn:E; [exact (C s m E)|]. split; [apply tidy_nil|]. intros p H. now destruct H. }
  clearbody known. destruct K as [T K].
  assert (R : forall p o, holds (fold_left (fun r p => match arc_at p known with Some os => extend p os r | None => r end) preds []) p o <->
    (In p preds /\ arc_at p known <> None) /\ answers (e_graph e) s p o).
  { intros p o. rewrite extend_known_holds. split.
    - intros [H|[H I]]; [now apply no_arcs in H|]. assert (N : arc_at p known <> None) by (destruct I as (os & I & _); congruence).
      split; [auto|]. now apply K.
    - intros [[H N] A]. right. split; [exact H|]. now apply K. }
  assert (RT := extend_known_tidy known preds [] tidy_nil).
  revert R RT. generalize (fold_left (fun r p => match arc_at p known with Some os => extend p os r | None => r end) preds []).
  intros results R RT.
  pose proof (unknown_in known preds) as U.
  destruct (unknown known preds) as [|u us] eqn:UE.
  - split; [reflexivity|split; [reflexivity|split; [exact C|split; [discriminate|]]]].
    intros m rem [= <- <-]. split; [reflexivity|split; [exact RT|]]. intros p o. rewrite R. split; [tauto|]. intros [H A].
    split; [|exact A]. split; [exact H|]. intros N. destruct (proj2 (U p) (conj H N)).
  - rewrite <- UE in *. clear u us UE. destruct (e_up e) eqn:UP.
    + cbn [e_graph e_up e_cache]. split; [reflexivity|split; [reflexivity|split; [|split; [discriminate|]]]].
      * intros s' m. cbn [e_cache e_graph]. rewrite cached_put. destruct (subject_dec s' s) as [->|D]; [|apply C].
        intros [= <-]. split; [apply insert_all_tidy; now apply touch_all_tidy|].
        intros p N o. rewrite insert_all_holds, touch_all_holds, solutions_in.
        apply insert_all_at in N. destruct (arc_at p known) as [os|] eqn:E.
        -- assert (N' : arc_at p known <> None) by congruence. rewrite (K p N' o). tauto.
        -- assert (NH : ~ holds known p o) by (intros (os & I & _); congruence).
           assert (I : In p (unknown known preds)).
           { destruct N as [N|(x & N)]; [|now apply solutions_in in N]. apply touch_all_at in N. destruct N as [N|N]; [congruence|exact N]. }
           tauto.
      * intros m rem [= <- <-]. split; [reflexivity|split; [now apply insert_all_tidy|]].
        intros p o. rewrite insert_all_holds, solutions_in, R, U. destruct (arc_at p known).
        -- split; [tauto|]. intros [H A]. right. split; [split; [exact H|discriminate]|exact A].
        -- split; [tauto|]. intros [H A]. left. auto.
    + cbn. split; [reflexivity|split; [exact UP|split; [exact C|split; [congruence|discriminate]]]].
Qed.
