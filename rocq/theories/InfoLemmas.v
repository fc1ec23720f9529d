(* Lemmas about collecting, arranging, printing and reading the arcs of a node. *)
From Coq Require Import List String Ascii Bool NArith Lia Permutation.
Import ListNotations.
From Verif Require Import NbModel NbSpec NbLemmas InfoModel InfoSpec.
Open Scope list_scope.

(* Trees *)
Section info_ind2.
Variable P : info -> Prop.
Hypothesis H : forall p t rest, (forall i, In i rest -> P i) -> P (Info p t rest).
Fixpoint info_ind2 (i : info) : P i :=
  match i with Info p t rest =>
    H p t rest ((fix go (l : list info) : forall i, In i l -> P i :=
      match l return forall i, In i l -> P i with
      | [] => fun i F => match F with end
      | x :: l => fun i F => match F with or_introl E => eq_ind x P (info_ind2 x) i E | or_intror F => go l i F end
      end) rest)
  end.
End info_ind2.
Lemma list_info_ind (P : list info -> Prop) : (forall l, (forall p t rest, In (Info p t rest) l -> P rest) -> P l) -> forall l, P l.
Proof.
  intros H. assert (X : forall i, match i with Info _ _ rest => P rest end).
  { apply info_ind2. intros p t rest IH. apply H. intros q u r I. exact (IH _ I). }
  intros l. apply H. intros p t rest _. exact (X (Info p t rest)).
Qed.

(* Arcs *)
Lemma pairs_listed m : listed Direct m = List.map (fun x => (Direct (fst x), snd x)) (pairs m).
Proof.
  unfold listed, pairs. induction m as [|[p os] m IH]; cbn; [reflexivity|]. rewrite map_app, IH. f_equal. rewrite map_map. reflexivity.
Qed.
Lemma pairs_in m p o : tidy m -> (In (p, o) (pairs m) <-> holds m p o).
Proof.
  intros T. pose proof (listed_in Direct m (Direct p) o) as X. rewrite pairs_listed in X.
  assert (K : forall a b, Direct a = Direct b -> a = b) by (intros a b [= E]; exact E).
  specialize (X K T). split.
  - intros H. destruct X as [X _]. destruct X as (q & [= <-] & Y); [|exact Y]. apply in_map_iff. exists (p, o). auto.
  - intros H. destruct X as [_ X]. assert (Y : exists q, Direct p = Direct q /\ holds m q o) by (exists p; auto).
    apply X in Y. apply in_map_iff in Y. destruct Y as ([q x] & [= <- <-] & Y). exact Y.
Qed.
Lemma pairs_once m : tidy m -> NoDup (pairs m).
Proof.
  intros T. assert (K : forall a b, Direct a = Direct b -> a = b) by (intros a b [= E]; exact E).
  pose proof (listed_once Direct m K T) as N. rewrite pairs_listed in N. exact (NoDup_map_inv _ _ N).
Qed.
Lemma outgoing_right g s : tidy (outgoing_arcs g s) /\ forall p o, holds (outgoing_arcs g s) p o <-> has g s p o.
Proof.
  unfold outgoing_arcs. split; [apply insert_all_tidy; exact tidy_nil|]. intros p o. rewrite insert_all_holds, in_map_iff. split.
  - intros [(t & [= <- <-] & H)|H]; [|now apply no_arcs in H]. apply matching_right in H. destruct H as (H & [X|X] & _); [discriminate|]. injection X as ->.
    unfold has. destruct t; exact H.
  - intros H. left. exists {| t_s := s; t_p := p; t_o := o |}. split; [reflexivity|]. apply matching_right. unfold suits. cbn. auto 6.
Qed.
Lemma incoming_right g o : tidy (incoming_arcs g o) /\ forall p s, holds (incoming_arcs g o) p s <-> exists x, s = TSub x /\ has g x p o.
Proof.
  unfold incoming_arcs. split; [apply insert_all_tidy; exact tidy_nil|]. intros p s. rewrite insert_all_holds, in_map_iff. split.
  - intros [(t & [= <- <-] & H)|H]; [|now apply no_arcs in H]. apply matching_right in H. destruct H as (H & _ & _ & [X|X]); [discriminate|]. injection X as ->.
    exists (t_s t). split; [reflexivity|]. unfold has. destruct t; exact H.
  - intros (x & -> & H). left. exists {| t_s := x; t_p := p; t_o := o |}. split; [reflexivity|]. apply matching_right. unfold suits. cbn. auto 6.
Qed.
Lemma arc_map_right g s preds : tidy (arc_map g s preds) /\ forall p o, holds (arc_map g s preds) p o <-> has g s p o /\ allowed preds p.
Proof.
  unfold arc_map, allowed. destruct preds as [|q preds].
  - destruct (outgoing_right g s) as [T H]. split; [exact T|]. intros p o. rewrite H. tauto.
  - destruct (outgoing_from_right (matching g (Some s) None None) (q :: preds)) as (H & T & _). split; [exact T|]. intros p o. rewrite H. split.
    + intros (I & t & M & <- & <-). apply matching_right in M. destruct M as (M & [X|X] & _); [discriminate|]. injection X as ->.
      split; [|auto]. unfold has. destruct t; exact M.
    + intros [M [X|X]]; [discriminate|]. split; [exact X|]. exists {| t_s := s; t_p := p; t_o := o |}. split; [|auto].
      apply matching_right. unfold suits. cbn. auto 6.
Qed.

(* Collecting, whatever the arcs are *)
Section collect.
Variable next : subject -> list (string * term).
Fixpoint collect (depth : nat) (s : subject) : option (list info) :=
  let found := next s in
  match depth with
  | 0 => each (fun x => match snd x with TSub _ => None | TLit _ => Some (leaf x) end) found
  | S d => match d with
           | 0 => Some (List.map leaf found)
           | S _ => each (fun x => match snd x with TSub o => option_map (Info (fst x) (snd x)) (collect d o) | TLit _ => Some (leaf x) end) found
           end
  end.
Inductive goes : subject -> list (string * term) -> Prop :=
| Goes_one s p o : In (p, o) (next s) -> goes s [(p, o)]
| Goes_more s p o steps : In (p, TSub o) (next s) -> goes o steps -> goes s ((p, TSub o) :: steps).
Lemma each_some {A B} (f : A -> option B) l : (forall x, In x l -> exists b, f x = Some b) -> exists bs, each f l = Some bs /\ Forall2 (fun a b => f a = Some b) l bs.
Proof.
  induction l as [|a l IH]; cbn; intros H; [exists []; auto|]. destruct (H a (or_introl eq_refl)) as (b & E).
  destruct IH as (bs & F & G); [auto|]. rewrite E, F. exists (b :: bs). auto.
Qed.
Lemma Forall2_in_l {A B} (R : A -> B -> Prop) l k a : Forall2 R l k -> In a l -> exists b, In b k /\ R a b.
Proof. intros F. induction F as [|x y l k H F IH]; cbn; [intros []|]. intros [->|I]; [eauto|]. destruct (IH I) as (b & J & K). eauto. Qed.
Lemma Forall2_in_r {A B} (R : A -> B -> Prop) l k b : Forall2 R l k -> In b k -> exists a, In a l /\ R a b.
Proof. intros F. induction F as [|x y l k H F IH]; cbn; [intros []|]. intros [->|I]; [eauto|]. destruct (IH I) as (a & J & K). eauto. Qed.
Hypothesis once : forall s, NoDup (next s).
Lemma collect_right d : forall s, exists l, collect (S d) s = Some l /\ each_once l /\ forall steps, branch l steps <-> goes s steps /\ List.length steps <= S d.
Proof.
  induction d as [|d IH]; intros s.
  - cbn. exists (List.map leaf (next s)). split; [reflexivity|]. split.
    + constructor.
      * rewrite map_map. erewrite map_ext; [rewrite map_id; apply once|]. intros [p o]. reflexivity.
      * intros p t rest I. apply in_map_iff in I. destruct I as ([q o] & [= <- <- <-] & _). constructor; [constructor|intros ? ? ? []].
    + assert (E : forall p t rest, In (Info p t rest) (List.map leaf (next s)) <-> rest = [] /\ In (p, t) (next s)).
      { intros p t rest. rewrite in_map_iff. split; [intros ([q o] & [= <- <- <-] & H); auto|intros [-> H]; exists (p, t); auto]. }
      intros steps. split.
      * intros B. inversion B as [l p t rest I EL ES|l p t rest st I B' EL ES]; subst; apply E in I; destruct I as [-> I].
        -- split; [now constructor|cbn; lia].
        -- inversion B' as [l' p' t' rest' I' |l' p' t' rest' st' I']; subst; destruct I'.
      * intros [G Hl]. inversion G as [s' p o I Es Est|s' p o st I G' Es Est]; subst.
        -- apply (Branch_here _ _ _ []). apply E. auto.
        -- cbn in Hl. inversion G'; subst; cbn in Hl; lia.
  - remember (S d) as d1 eqn:Ed1.
    set (f := fun x : string * term => match snd x with TSub o => option_map (Info (fst x) (snd x)) (collect d1 o) | TLit _ => Some (leaf x) end).
    assert (U : collect (S d1) s = each f (next s)) by (unfold f; rewrite Ed1; reflexivity). rewrite U.
    destruct (each_some f (next s)) as (bs & E & F).
    { intros [p [o|o]] _; unfold f; cbn; [|eauto]. destruct (IH o) as (l & -> & _). cbn. eauto. }
    exists bs. split; [exact E|].
    assert (Ar : List.map arc_of bs = next s).
    { clear E IH U. induction F as [|[p o] b l k X F IHF]; [reflexivity|]. cbn. f_equal; [|exact IHF].
      unfold f in X. cbn in X. destruct o as [o|o].
      - destruct (collect d1 o); cbn in X; [injection X as <-; reflexivity|discriminate].
      - injection X as <-. reflexivity. }
    assert (Down : forall p t rest, In (Info p t rest) bs ->
              In (p, t) (next s) /\ match t with TSub o => collect d1 o = Some rest | TLit _ => rest = [] end).
    { intros p t rest I. destruct (Forall2_in_r _ _ _ _ F I) as ([q o] & J & X). unfold f in X. cbn in X. destruct o as [o|o].
      - destruct (collect d1 o) eqn:C; [|discriminate]. cbn in X. injection X as -> <- ->. auto.
      - injection X as -> <- <-. auto. }
    assert (Has : forall p t, In (p, t) (next s) -> exists rest, In (Info p t rest) bs).
    { intros p t I. rewrite <- Ar in I. apply in_map_iff in I. destruct I as ([q u rest] & [= -> ->] & I). eauto. }
    split.
    + constructor; [rewrite Ar; apply once|]. intros p t rest I. destruct (Down _ _ _ I) as [_ X]. destruct t as [o|o].
      * destruct (IH o) as (l & Y & O & _). assert (rest = l) as -> by congruence. exact O.
      * subst rest. constructor; [constructor|intros ? ? ? []].
    + intros steps. split.
      * intros B. inversion B as [l p t rest I EL ES|l p t rest st I B' EL ES]; subst l steps; destruct (Down _ _ _ I) as [J X].
        -- split; [now constructor|cbn; lia].
        -- destruct t as [o|o].
           ++ destruct (IH o) as (l & Y & _ & W). assert (rest = l) as -> by congruence. apply W in B'. destruct B' as [G Hl].
              split; [now constructor|cbn; lia].
           ++ subst rest. inversion B' as [l' p' t' rest' I' |l' p' t' rest' st' I']; subst; destruct I'.
      * intros [G Hl]. inversion G as [s' p o I Es Est|s' p o st I G' Es Est]; subst s' steps.
        -- destruct (Has _ _ I) as (rest & J). exact (Branch_here _ _ _ _ J).
        -- destruct (Has _ _ I) as (rest & J). destruct (Down _ _ _ J) as [_ X]. cbn in X.
           destruct (IH o) as (l & Y & _ & W). assert (rest = l) as -> by congruence. apply (Branch_down _ _ _ _ _ J). apply W.
           split; [exact G'|cbn in Hl; lia].
Qed.
End collect.
Lemma each_ext {A B} (f h : A -> option B) l : (forall x, f x = h x) -> each f l = each h l.
Proof. intros E. induction l as [|a l IH]; cbn; [reflexivity|]. now rewrite E, IH. Qed.
Lemma collect_outgoing_is g preds depth s : collect_outgoing g preds depth s = collect (fun s => pairs (arc_map g s preds)) depth s.
Proof.
  revert s. induction depth as [|[|d] IH]; intros s; [reflexivity|reflexivity|].
  change (collect_outgoing g preds (S (S d)) s) with
    (each (fun x => match snd x with TSub o => option_map (Info (fst x) (snd x)) (collect_outgoing g preds (S d) o) | TLit _ => Some (leaf x) end) (pairs (arc_map g s preds))).
  change (collect (fun s => pairs (arc_map g s preds)) (S (S d)) s) with
    (each (fun x => match snd x with TSub o => option_map (Info (fst x) (snd x)) (collect (fun s => pairs (arc_map g s preds)) (S d) o) | TLit _ => Some (leaf x) end) (pairs (arc_map g s preds))).
  apply each_ext. intros [p [o|o]]; cbn [snd]; [|reflexivity]. now rewrite IH.
Qed.
Lemma collect_incoming_is g depth s : collect_incoming g depth s = collect (fun s => pairs (incoming_arcs g (TSub s))) depth s.
Proof.
  revert s. induction depth as [|[|d] IH]; intros s; [reflexivity|reflexivity|].
  change (collect_incoming g (S (S d)) s) with
    (each (fun x => match snd x with TSub o => option_map (Info (fst x) (snd x)) (collect_incoming g (S d) o) | TLit _ => Some (leaf x) end) (pairs (incoming_arcs g (TSub s)))).
  change (collect (fun s => pairs (incoming_arcs g (TSub s))) (S (S d)) s) with
    (each (fun x => match snd x with TSub o => option_map (Info (fst x) (snd x)) (collect (fun s => pairs (incoming_arcs g (TSub s))) (S d) o) | TLit _ => Some (leaf x) end) (pairs (incoming_arcs g (TSub s)))).
  apply each_ext. intros [p [o|o]]; cbn [snd]; [|reflexivity]. now rewrite IH.
Qed.
Lemma goes_walk g preds s steps : goes (fun s => pairs (arc_map g s preds)) s steps <-> walk (allowed preds) g s steps.
Proof.
  assert (E : forall s p o, In (p, o) (pairs (arc_map g s preds)) <-> has g s p o /\ allowed preds p).
  { intros x p o. destruct (arc_map_right g x preds) as [T H]. rewrite (pairs_in _ _ _ T). apply H. }
  split; intros W.
  - induction W as [x p o I|x p o st I W IH]; apply E in I; [now constructor|constructor; tauto].
  - induction W as [x p o I K|x p o st I K W IH]; [constructor; apply E; auto|constructor; [apply E; auto|exact IH]].
Qed.
Lemma goes_back g s steps : goes (fun s => pairs (incoming_arcs g (TSub s))) s steps <-> walk_back g s steps.
Proof.
  assert (E : forall s p o, In (p, o) (pairs (incoming_arcs g (TSub s))) <-> exists x, o = TSub x /\ has g x p (TSub s)).
  { intros x p o. destruct (incoming_right g (TSub x)) as [T H]. rewrite (pairs_in _ _ _ T). apply H. }
  split; intros W; induction W as [x p o I|x p o st I W IH].
  - apply E in I. destruct I as (y & -> & I). now constructor.
  - apply E in I. destruct I as (y & [= ->] & I). now constructor.
  - constructor. apply E. eauto.
  - constructor; [apply E; eauto|exact IH].
Qed.

(* Arranging *)
Lemma put_permutation x l : Permutation (x :: l) (put x l).
Proof. induction l as [|y l IH]; cbn; [reflexivity|]. destruct (String.leb _ _); [reflexivity|]. rewrite perm_swap. now constructor. Qed.
Lemma sorted_permutation l : Permutation l (sorted l).
Proof. induction l as [|x l IH]; cbn; [reflexivity|]. rewrite <- put_permutation. now constructor. Qed.
Lemma leb_total a b : String.leb a b = false -> String.leb b a = true.
Proof.
  unfold String.leb. rewrite (String.compare_antisym b a). destruct (String.compare a b); cbn; congruence.
Qed.
Definition ordered (l : list info) : Prop := forall a b x y, l = a ++ x :: y :: b -> String.leb (fst (arc_of x)) (fst (arc_of y)) = true.
Lemma pred_of_is i : pred_of i = fst (arc_of i).
Proof. destruct i; reflexivity. Qed.
Lemma ordered_cons x l : ordered l -> (forall y k, l = y :: k -> String.leb (pred_of x) (pred_of y) = true) -> ordered (x :: l).
Proof.
  intros O H [|z a] b u v E; injection E as -> E.
  - rewrite <- !pred_of_is. exact (H _ _ E).
  - exact (O a b u v E).
Qed.
Lemma ordered_tail x l : ordered (x :: l) -> ordered l.
Proof. intros O a b u v ->. exact (O (x :: a) b u v eq_refl). Qed.
Lemma put_ordered x l : ordered l -> ordered (put x l).
Proof.
  induction l as [|y l IH]; cbn; intros O.
  - apply ordered_cons; [exact O|discriminate].
  - destruct (String.leb (pred_of x) (pred_of y)) eqn:E.
    + apply ordered_cons; [exact O|]. intros z k [= <- _]. exact E.
    + apply ordered_cons; [apply IH; exact (ordered_tail _ _ O)|]. intros z k F. destruct l as [|w l]; cbn in F.
      * injection F as <- _. exact (leb_total _ _ E).
      * destruct (String.leb (pred_of x) (pred_of w)); injection F as <- _; [exact (leb_total _ _ E)|].
        rewrite !pred_of_is. exact (O [] l y w eq_refl).
Qed.
Lemma sorted_ordered l : ordered (sorted l).
Proof. induction l as [|x l IH]; cbn; [intros [|? [|? ?]] ? ? ?; discriminate|]. now apply put_ordered. Qed.
Lemma arrange_all_in_order l : in_order (arrange_all l).
Proof.
  revert l. apply list_info_ind. intros l IH. constructor; [apply sorted_ordered|].
  intros p t rest I. unfold arrange_all in I. apply (Permutation_in _ (Permutation_sym (sorted_permutation _))) in I.
  apply in_map_iff in I. destruct I as ([q u r] & [= <- <- <-] & I). exact (IH _ _ _ I).
Qed.
Lemma arrange_all_same l : same_tree l (arrange_all l).
Proof.
  revert l. apply list_info_ind. intros l IH. apply (Same _ (List.map arrange l)); [|apply sorted_permutation].
  induction l as [|[p t rest] l IHl]; cbn; constructor.
  - constructor. exact (IH p t rest (or_introl eq_refl)).
  - apply IHl. intros q u r I. apply (IH q u). now right.
Qed.
Lemma same_tree_in l k p t rest : same_tree l k -> In (Info p t rest) k -> exists r, In (Info p t r) l /\ same_tree r rest.
Proof.
  intros S I. inversion S as [x y z F P]; subst. apply (Permutation_in _ (Permutation_sym P)) in I.
  destruct (Forall2_in_r _ _ _ _ F I) as (i & J & X). inversion X; subst. eauto.
Qed.
Lemma same_tree_in_l l k p t rest : same_tree l k -> In (Info p t rest) l -> exists r, In (Info p t r) k /\ same_tree rest r.
Proof.
  intros S I. inversion S as [x y z F P]; subst.
  destruct (Forall2_in_l _ _ _ _ F I) as (i & J & X). inversion X; subst. apply (Permutation_in _ P) in J. eauto.
Qed.
Lemma same_tree_branch l k steps : same_tree l k -> branch l steps <-> branch k steps.
Proof.
  intros S. split; intros B; revert S.
  - revert k. induction B as [l p t rest I|l p t rest st I B IH]; intros k S; destruct (same_tree_in_l _ _ _ _ _ S I) as (r & J & Y).
    + exact (Branch_here _ _ _ _ J).
    + exact (Branch_down _ _ _ _ _ J (IH _ Y)).
  - revert l. induction B as [k p t rest I|k p t rest st I B IH]; intros l S; destruct (same_tree_in _ _ _ _ _ S I) as (r & J & Y).
    + exact (Branch_here _ _ _ _ J).
    + exact (Branch_down _ _ _ _ _ J (IH _ Y)).
Qed.
Lemma same_tree_once l k : same_tree l k -> each_once l -> each_once k.
Proof.
  revert k. induction l as [l IH] using list_info_ind. intros k S O. inversion O as [x N D]; subst. constructor.
  - inversion S as [x y z F P]; subst. apply (Permutation_NoDup (Permutation_map arc_of P)).
    assert (E : List.map arc_of y = List.map arc_of l). { clear - F. induction F as [|a b l k H F IH]; [reflexivity|]. cbn. rewrite IH. inversion H; reflexivity. }
    now rewrite E.
  - intros p t rest I. destruct (same_tree_in _ _ _ _ _ S I) as (r & J & Y). exact (IH _ _ _ J _ Y (D _ _ _ J)).
Qed.
