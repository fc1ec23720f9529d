(* Lemmas about pictures of graphs. *)
From Coq Require Import List String Bool Arith Lia.
Import ListNotations.
From Verif Require Import VgModel VgSpec.
Open Scope list_scope.

Lemma id_in_In n l i : id_in n l = Some i -> In (n, i) l.
Proof. induction l as [|[m j] l IH]; cbn; [discriminate|]. destruct (vnode_dec n m) as [->|]; [intros [= ->]; auto|auto]. Qed.
Lemma id_in_none n l : id_in n l = None <-> ~ In n (List.map fst l).
Proof.
  induction l as [|[m j] l IH]; cbn; [tauto|]. destruct (vnode_dec n m) as [->|E]; [split; [discriminate|tauto]|]. rewrite IH. split; [intros H [X|X]; [congruence|auto]|tauto].
Qed.
Lemma In_id_in n l i : NoDup (List.map fst l) -> In (n, i) l -> id_in n l = Some i.
Proof.
  intros N H. destruct (id_in n l) as [j|] eqn:E.
  - apply id_in_In in E. f_equal. induction l as [|[m k] l IH]; [destruct H|]. cbn in N. inversion N as [|? ? A B]; subst.
    destruct H as [H|H], E as [E|E]; [congruence| | |auto].
    + destruct A. apply in_map_iff. exists (n, j). split; [cbn; congruence|exact E].
    + destruct A. apply in_map_iff. exists (n, i). split; [cbn; congruence|exact H].
  - apply id_in_none in E. destruct E. apply in_map_iff. exists (n, i). auto.
Qed.
Definition known (v : vgraph) (n : vnode) : Prop := In n (List.map fst (nodes v)).
Definition wf (v : vgraph) : Prop := NoDup (List.map fst (nodes v)) /\ List.map snd (nodes v) = seq 0 (counter v).
Definition num (r : role) (n : vnode) (v : vgraph) : nat := number r (match usage_in n (usages v) with Some u => u | None => none end).
Definition times (us : list (role * vnode)) (r : role) (n : vnode) : nat := count_occ use_dec us (r, n).
(* what a step adds: nodes and uses *)
Definition grows (v : vgraph) (ns : list vnode) (us : list (role * vnode)) (v' : vgraph) : Prop :=
  wf v' /\ (forall x, In x (nodes v) -> In x (nodes v')) /\ (forall m, known v' m <-> known v m \/ In m ns) /\
  (forall r m, num r m v' = num r m v + times us r m) /\ edges v' = edges v.
Lemma grows_refl v : wf v -> grows v [] [] v.
Proof. intros W. split; [exact W|]. split; [auto|]. split; [cbn; tauto|]. split; [|reflexivity]. intros r m. cbn. lia. Qed.
Lemma grows_trans u ns us v ms vs w : grows u ns us v -> grows v ms vs w -> grows u (ns ++ ms) (us ++ vs) w.
Proof.
  intros (_ & A & B & C & D) (W & A' & B' & C' & D'). split; [exact W|]. split; [auto|]. split; [|split; [|congruence]].
  - intros m. rewrite B', B, in_app_iff. tauto.
  - intros r m. rewrite C', C. unfold times. rewrite count_occ_app. lia.
Qed.
Lemma get_or_create_grows n v i v' : wf v -> get_or_create n v = (i, v') -> grows v [n] [] v' /\ In (n, i) (nodes v').
Proof.
  intros [N S] E. unfold get_or_create in E. destruct (id_in n (nodes v)) as [j|] eqn:F; injection E as <- <-.
  - apply id_in_In in F. split; [|exact F]. split; [split; assumption|]. split; [auto|]. split; [|split; [intros r m; cbn; lia|reflexivity]].
    intros m. split; [auto|]. intros [H|[<-|[]]]; [exact H|]. apply in_map_iff. exists (n, j). auto.
  - apply id_in_none in F. split; [|cbn; rewrite in_app_iff; cbn; auto]. split; [|split; [|split; [|split]]]; cbn.
    + split; cbn.
      * rewrite map_app. cbn. apply (NoDup_Add (a := n) (l := List.map fst (nodes v))); [|auto].
        rewrite <- (app_nil_r (List.map fst (nodes v))) at 1. apply Add_app.
      * rewrite map_app, S. cbn [List.map snd]. change (counter v) with (0 + counter v) at 2. rewrite <- seq_S. reflexivity.
    + intros x H. apply in_app_iff. auto.
    + intros m. unfold known. cbn. rewrite map_app, in_app_iff. cbn. tauto.
    + intros r m. unfold num. cbn. lia.
    + reflexivity.
Qed.
Lemma create_grows n v : wf v -> grows v [n] [] (create n v).
Proof. intros W. unfold create. destruct (get_or_create n v) as [i v'] eqn:E. exact (proj1 (get_or_create_grows _ _ _ _ W E)). Qed.
Lemma number_increment r r' u : number r' (increment r u) = number r' u + (if role_dec r r' then 1 else 0).
Proof. destruct r, r'; cbn; lia. Qed.
Lemma count_in_right r n l m : 
  usage_in m (count_in r n l) = if vnode_dec m n then Some (increment r (match usage_in n l with Some u => u | None => none end)) else usage_in m l.
Proof.
  induction l as [|[k u] l IH]; cbn; [reflexivity|].
  destruct (vnode_dec n k) as [->|E]; cbn.
  - destruct (vnode_dec m k) as [->|F]; [reflexivity|reflexivity].
  - rewrite IH. destruct (vnode_dec m k) as [->|F]; [|reflexivity]. destruct (vnode_dec k n); [congruence|reflexivity].
Qed.
Lemma count_grows r n v : wf v -> grows v [] [(r, n)] (count r n v).
Proof.
  intros W. split; [exact W|]. split; [auto|]. split; [cbn; tauto|]. split; [|reflexivity]. intros r' m. unfold num, count. cbn [usages].
  rewrite count_in_right. unfold times. cbn [count_occ]. destruct (vnode_dec m n) as [->|E].
  - rewrite number_increment. destruct (role_dec r r') as [->|F]; destruct (use_dec _ _) as [G|G]; try congruence; lia.
  - destruct (use_dec _ _) as [G|G]; [congruence|lia].
Qed.
Lemma grows_wf v ns us v' : grows v ns us v' -> wf v'.
Proof. intros (W & _). exact W. Qed.

Section lib.
Context {L : lib}.
Lemma from_subject_right g s : depicts g (subject_term s) (from_subject s).
Proof. destruct s; constructor. Qed.
Lemma from_predicate_right p : depicts_predicate p (from_predicate p).
Proof.
  unfold from_predicate. destruct (String.eqb p reifies) eqn:E.
  - apply String.eqb_eq in E. subst. constructor.
  - apply String.eqb_neq in E. now constructor.
Qed.
Lemma from_iri_right p : depicts_arrow p (from_iri p).
Proof.
  unfold from_iri. destruct (String.eqb p reifies) eqn:E.
  - apply String.eqb_eq in E. subst. constructor.
  - apply String.eqb_neq in E. now constructor.
Qed.
Lemma depicts_predicate_det p a b : depicts_predicate p a -> depicts_predicate p b -> a = b.
Proof. intros A B. inversion A; inversion B; subst; congruence. Qed.
Lemma depicts_arrow_det p a b : depicts_arrow p a -> depicts_arrow p b -> a = b.
Proof. intros A B. inversion A; inversion B; subst; congruence. Qed.
Lemma depicts_det g t : forall a b, depicts g t a -> depicts g t b -> a = b.
Proof.
  assert (S : forall s a b, depicts g (subject_term s) a -> depicts g (subject_term s) b -> a = b).
  { intros [i|i] a b A B; inversion A; inversion B; subst; congruence. }
  induction t as [i|i|l|s p o IH]; intros a b A B.
  - inversion A; inversion B; subst; congruence.
  - inversion A; inversion B; subst; congruence.
  - inversion A; inversion B; subst; congruence.
  - inversion A as [| | |s1 p1 o1 a1 b1 c1 I1 S1 P1 O1|s1 p1 o1 a1 b1 c1 I1 S1 P1 O1]; subst;
      inversion B as [| | |s2 p2 o2 a2 b2 c2 I2 S2 P2 O2|s2 p2 o2 a2 b2 c2 I2 S2 P2 O2]; subst; try contradiction;
      rewrite (S _ _ _ S1 S2), (depicts_predicate_det _ _ _ P1 P2), (IH _ _ O1 O2); reflexivity.
Qed.

(* Terms *)
Definition is_leaf (n : vnode) : Prop := match n with VIri _ _ | VBlank _ | VLit _ => True | _ => False end.
Definition is_pred (n : vnode) : Prop := match n with VPred _ _ | Reifies => True | _ => False end.
Lemma leaf_right o n : leaf o = Ok n -> is_leaf n.
Proof. destruct o; cbn; intros [= <-]; exact Logic.I. Qed.
Lemma triple_term_grows g s p o v n v' : wf v -> create_triple_term g s p o v = Ok (n, v') ->
  exists z o', as_object o = Some o' /\ leaf o' = Ok z /\
    n = (if in_dec triple_dec {| t_s := s; t_p := p; t_o := o |} g then Asserted (from_subject s) (from_predicate p) z else NonAsserted (from_subject s) (from_predicate p) z) /\
    grows v [from_subject s; from_predicate p; z] [(InSubject, from_subject s); (InPredicate, from_predicate p); (InObject, z)] v'.
Proof.
  intros W E. unfold create_triple_term in E. destruct (as_object o) as [o'|]; [|discriminate]. destruct (leaf o') as [z| |] eqn:Z; try discriminate.
  injection E as <- <-. exists z, o'. split; [reflexivity|]. split; [exact Z|]. split; [reflexivity|].
  pose proof (count_grows InSubject (from_subject s) v W) as G1. pose proof (create_grows (from_subject s) _ (grows_wf _ _ _ _ G1)) as G2.
  pose proof (count_grows InPredicate (from_predicate p) _ (grows_wf _ _ _ _ G2)) as G3. pose proof (create_grows (from_predicate p) _ (grows_wf _ _ _ _ G3)) as G4.
  pose proof (count_grows InObject z _ (grows_wf _ _ _ _ G4)) as G5. pose proof (create_grows z _ (grows_wf _ _ _ _ G5)) as G6.
  exact (grows_trans _ _ _ _ _ _ _ (grows_trans _ _ _ _ _ _ _ (grows_trans _ _ _ _ _ _ _ (grows_trans _ _ _ _ _ _ _ (grows_trans _ _ _ _ _ _ _ G1 G2) G3) G4) G5) G6).
Qed.
Lemma from_term_grows g t v n v' : wf v -> from_term g t v = Ok (n, v') ->
  (is_leaf n /\ v' = v /\ (forall s p o, t <> TTriple s p o)) \/
  (exists s p o o' x z, t = TTriple s p o /\ as_object o = Some o' /\ as_term o' = Some x /\
    create_triple_term g s p x v = Ok (n, v') /\ is_leaf z /\
    (n = Asserted (from_subject s) (from_predicate p) z \/ n = NonAsserted (from_subject s) (from_predicate p) z) /\
    grows v [from_subject s; from_predicate p; z] [(InSubject, from_subject s); (InPredicate, from_predicate p); (InObject, z)] v').
Proof.
  intros W E. unfold from_term in E. destruct (as_object t) as [o|] eqn:O; [|discriminate]. destruct t as [i|i|l|s p ot]; cbn in O.
  - injection O as <-. cbn in E. injection E as <- <-. left. repeat split. discriminate.
  - injection O as <-. cbn in E. injection E as <- <-. left. repeat split. discriminate.
  - destruct (convert l); [|discriminate]. injection O as <-. cbn in E. injection E as <- <-. left. repeat split. discriminate.
  - right. destruct (as_object ot) as [o'|] eqn:P; [|discriminate]. injection O as <-. cbn in E. destruct (as_term o') as [x|] eqn:X; [|discriminate].
    destruct (triple_term_grows _ _ _ _ _ _ _ W E) as (z & o2 & _ & Z & N & G). exists s, p, ot, o', x, z.
    split; [reflexivity|]. split; [exact P|]. split; [exact X|]. split; [exact E|]. split; [exact (leaf_right _ _ Z)|].
    split; [destruct (in_dec _ _ _); auto|exact G].
Qed.
Lemma drawable_right g t v : (exists r, from_term g t v = Ok r) <-> drawable t.
Proof.
  unfold from_term. destruct t as [i|i|l|s p o]; cbn.
  - split; [auto|eauto].
  - split; [auto|eauto].
  - destruct (convert l); cbn; split; eauto; try congruence. intros (r & X); discriminate.
  - destruct o as [i|i|l|s' p' o']; cbn.
    + split; [auto|]. intros _. unfold create_triple_term. cbn. eauto.
    + split; [auto|]. intros _. unfold create_triple_term. cbn. eauto.
    + destruct (convert l) as [c|] eqn:C; cbn.
      * unfold create_triple_term. cbn. destruct (convert (back c)) as [d|] eqn:D; cbn.
        -- split; [|eauto]. intros _. exists c. split; [reflexivity|congruence].
        -- split; [intros (r & X); discriminate|]. intros (c' & [= <-] & X). congruence.
      * split; [intros (r & X); discriminate|]. intros (c' & X & _). discriminate.
    + destruct (as_object o'); cbn; (split; [intros (r & X); discriminate|intros []]).
Qed.
Lemma exact_drawable t : exact_term t -> drawable t.
Proof.
  destruct t as [i|i|l|s p o]; cbn; auto. destruct o as [i|i|l|s' p' o']; cbn; auto. intros (c & E & B). exists c. split; [exact E|]. rewrite B. congruence.
Qed.
Lemma from_term_exact g t v n v' : wf v -> exact_term t -> from_term g t v = Ok (n, v') -> depicts g t n /\
  ((forall s p o, t <> TTriple s p o) /\ v' = v \/
   exists s p o z, t = TTriple s p o /\ depicts g o z /\
     grows v [from_subject s; from_predicate p; z] [(InSubject, from_subject s); (InPredicate, from_predicate p); (InObject, z)] v').
Proof.
  intros W X E. destruct (from_term_grows _ _ _ _ _ W E) as [(I & -> & N)|(s & p & o & o' & x & z & -> & Eo & Et & C & Iz & _ & _)].
  - split; [|left; auto]. unfold from_term in E. destruct t as [i|i|l|s p o]; cbn in E; [injection E as <-; constructor..| |destruct (N s p o eq_refl)].
    destruct (convert l) as [c|] eqn:C; [|discriminate]. cbn in E. injection E as <-. now constructor.
  - destruct (triple_term_grows _ _ _ _ _ _ _ W C) as (z' & o2 & E2 & Z & N & G).
    assert (Hx : x = o). { destruct o as [i|i|l|s' p' o3]; cbn in Eo, X; [injection Eo as <-; cbn in Et; congruence..| |destruct X].
      destruct X as (c & Hc & B). rewrite Hc in Eo. injection Eo as <-. cbn in Et. congruence. }
    subst x. assert (Dz : depicts g o z').
    { destruct o as [i|i|l|s' p' o3]; cbn in E2, X; [injection E2 as <-; injection Z as <-; constructor..| |destruct X].
      destruct (convert l) as [c|] eqn:Cl; [|discriminate]. injection E2 as <-. injection Z as <-. now constructor. }
    split.
    + subst n. destruct (in_dec _ _ _) as [I|I]; constructor; auto using from_subject_right, from_predicate_right.
    + right. exists s, p, o, z'. auto.
Qed.

(* Triples *)
Lemma add_edge_right e v x : In x (edges (add_edge e v)) <-> x = e \/ In x (edges v).
Proof.
  unfold add_edge. cbn. destruct (in_dec edge_dec e (edges v)) as [H|H]; [split; [auto|intros [->|X]; auto]|].
  rewrite in_app_iff. cbn. split; [intros [X|[<-|[]]]; auto|intros [->|X]; auto].
Qed.
Lemma add_edge_once e v : NoDup (edges v) -> NoDup (edges (add_edge e v)).
Proof.
  unfold add_edge. cbn. intros N. destruct (in_dec edge_dec e (edges v)) as [H|H]; [exact N|].
  apply (NoDup_Add (a := e) (l := edges v)); [|auto]. rewrite <- (app_nil_r (edges v)) at 1. apply Add_app.
Qed.
Lemma create_triple_step g t v v' : wf v -> create_triple g t v = Ok v' ->
  exists w n w' si oi, grows v [from_subject (t_s t)] [(RSubject, from_subject (t_s t)); (RPredicate, from_predicate (t_p t))] w /\
    from_term g (t_o t) w = Ok (n, w') /\ (wf w' -> exists u, grows w' [n] [(RObject, n)] u /\
      v' = add_edge (si, from_iri (t_p t), oi) u /\ In (from_subject (t_s t), si) (nodes w) /\ In (n, oi) (nodes u)).
Proof.
  intros W E. unfold create_triple in E. destruct (get_or_create _ (count RSubject _ v)) as [si v1] eqn:E1.
  pose proof (count_grows RSubject (from_subject (t_s t)) v W) as G1.
  destruct (get_or_create_grows _ _ _ _ (grows_wf _ _ _ _ G1) E1) as [G2 I].
  pose proof (count_grows RPredicate (from_predicate (t_p t)) _ (grows_wf _ _ _ _ G2)) as G3.
  destruct (from_term g (t_o t) _) as [[n w']| |] eqn:F; try discriminate.
  destruct (get_or_create n (count RObject n w')) as [oi u] eqn:E2. injection E as <-.
  exists (count RPredicate (from_predicate (t_p t)) v1), n, w', si, oi. split; [|split; [exact F|]].
  - exact (grows_trans _ _ _ _ _ _ _ (grows_trans _ _ _ _ _ _ _ G1 G2) G3).
  - intros W'. pose proof (count_grows RObject n w' W') as G4. destruct (get_or_create_grows _ _ _ _ (grows_wf _ _ _ _ G4) E2) as [G5 J].
    exists u. split; [exact (grows_trans _ _ _ _ _ _ _ G4 G5)|]. auto.
Qed.
Lemma create_triple_ok g t v : (exists v', create_triple g t v = Ok v') <-> drawable (t_o t).
Proof.
  unfold create_triple. destruct (get_or_create _ (count RSubject _ v)) as [si v1].
  rewrite <- (drawable_right g (t_o t) (count RPredicate (from_predicate (t_p t)) v1)).
  destruct (from_term g (t_o t) _) as [[n w]| |].
  - destruct (get_or_create n _). split; eauto.
  - split; intros (x & X); discriminate.
  - split; intros (x & X); discriminate.
Qed.
Lemma create_all_ok g ts v : (exists v', create_all g ts v = Ok v') <-> forall t, In t ts -> drawable (t_o t).
Proof.
  revert v. induction ts as [|t ts IH]; intros v; cbn.
  - split; [intros _ t []|eauto].
  - pose proof (create_triple_ok g t v) as X. destruct (create_triple g t v) as [w| |].
    + rewrite IH. split; [intros H u [<-|I]; [apply X; eauto|auto]|auto].
    + split; [intros (y & Y); discriminate|]. intros H. destruct X as [_ X]. destruct (X (H t (or_introl eq_refl))) as (y & Y). discriminate.
    + split; [intros (y & Y); discriminate|]. intros H. destruct X as [_ X]. destruct (X (H t (or_introl eq_refl))) as (y & Y). discriminate.
Qed.
End lib.
