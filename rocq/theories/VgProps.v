(* C100: pictures of RDF graphs. *)
From Coq Require Import List String Ascii Bool Arith Lia.
Import ListNotations.
From Verif Require Import VgModel VgSpec VgLemmas.
Open Scope list_scope.

Section lib.
Context {L : lib}.
Lemma app_one_inj (c : Ascii.ascii) : forall a b, (a ++ String c "" = b ++ String c "")%string -> a = b.
Proof.
  induction a as [|x a IH]; intros [|y b] H; cbn in H; try reflexivity.
  - injection H as _ H. destruct b; discriminate.
  - injection H as _ H. destruct a; discriminate.
  - injection H as <- H. now rewrite (IH _ H).
Qed.
Lemma boxed_cons g t ts n : boxed g (t :: ts) n <-> boxed g [t] n \/ boxed g ts n.
Proof.
  split.
  - intros B. inversion B as [ts' t' n' I D|ts' t' n' I D|ts' t' s p o n' I E D|ts' t' s p o n' I E D|ts' t' s p o n' I E D]; subst;
      (destruct I as [<-|I]; [left|right]).
    + eapply B_subject; [now left|exact D].
    + eapply B_subject; [exact I|exact D].
    + eapply B_object; [now left|exact D].
    + eapply B_object; [exact I|exact D].
    + eapply B_inner_subject; [now left|exact E|exact D].
    + eapply B_inner_subject; [exact I|exact E|exact D].
    + eapply B_inner_predicate; [now left|exact E|exact D].
    + eapply B_inner_predicate; [exact I|exact E|exact D].
    + eapply B_inner_object; [now left|exact E|exact D].
    + eapply B_inner_object; [exact I|exact E|exact D].
  - assert (X : forall xs, incl xs (t :: ts) -> boxed g xs n -> boxed g (t :: ts) n).
    { intros xs I B. inversion B as [ts' t' n' J D|ts' t' n' J D|ts' t' s p o n' J E D|ts' t' s p o n' J E D|ts' t' s p o n' J E D]; subst.
      - eapply B_subject; [exact (I _ J)|exact D].
      - eapply B_object; [exact (I _ J)|exact D].
      - eapply B_inner_subject; [exact (I _ J)|exact E|exact D].
      - eapply B_inner_predicate; [exact (I _ J)|exact E|exact D].
      - eapply B_inner_object; [exact (I _ J)|exact E|exact D]. }
    intros [B|B]; eapply X; try exact B; intros x H; cbn in *; tauto.
Qed.
(* one triple *)
Lemma triple_right g t v v' : wf v -> exact_term (t_o t) -> create_triple g t v = Ok v' ->
  wf v' /\ (forall x, In x (nodes v) -> In x (nodes v')) /\ (forall n, known v' n <-> known v n \/ boxed g [t] n) /\
  (exists a b i j, depicts g (subject_term (t_s t)) a /\ depicts g (t_o t) b /\ In (a, i) (nodes v') /\ In (b, j) (nodes v') /\
     (forall x, In x (edges v') <-> x = (i, from_iri (t_p t), j) \/ In x (edges v))) /\
  (NoDup (edges v) -> NoDup (edges v')) /\
  exists us, (forall r n, num r n v' = num r n v + times us r n) /\ forall ts vs, uses g ts vs -> exists ws, uses g (t :: ts) ws /\ forall r n, times ws r n = times us r n + times vs r n.
Proof.
  intros W X E. destruct (create_triple_step _ _ _ _ W E) as (w & n & w' & si & oi & G & F & H).
  pose proof (grows_wf _ _ _ _ G) as Ww. destruct (from_term_exact _ _ _ _ _ Ww X F) as [D M].
  pose proof (from_subject_right g (t_s t)) as Ds. pose proof (from_predicate_right (t_p t)) as Dp.
  assert (exists ms us, grows w ms us w' /\ (forall m, In m ms -> boxed g [t] m) /\
    ((forall s p o, t_o t <> TTriple s p o) /\ ms = [] /\ us = [] \/
     exists s p o z, t_o t = TTriple s p o /\ depicts g o z /\ ms = [from_subject s; from_predicate p; z] /\
       us = [(InSubject, from_subject s); (InPredicate, from_predicate p); (InObject, z)])) as (ms & us & Gm & Bm & K).
  { destruct M as [[N ->]|(s & p & o & z & T & Dz & Gz)].
    - exists [], []. split; [apply grows_refl; exact Ww|]. split; [intros m []|]. auto.
    - eexists _, _. split; [exact Gz|]. split.
      + intros m [<-|[<-|[<-|[]]]].
        * eapply B_inner_subject; [now left|exact T|apply from_subject_right].
        * eapply B_inner_predicate; [now left|exact T|apply from_predicate_right].
        * eapply B_inner_object; [now left|exact T|exact Dz].
      + right. exists s, p, o, z. auto. }
  destruct (H (grows_wf _ _ _ _ Gm)) as (u & Gu & -> & Is & Io).
  pose proof (grows_trans _ _ _ _ _ _ _ (grows_trans _ _ _ _ _ _ _ G Gm) Gu) as (Wu & Nu & Ku & Cu & Eu).
  assert (Nw : forall x, In x (nodes w) -> In x (nodes u)) by (intros x I; apply Gu, Gm, I).
  split; [exact Wu|]. split; [exact Nu|]. split; [|split; [|split]].
  - intros m. unfold known, add_edge in *. cbn [nodes]. rewrite Ku, !in_app_iff. cbn. split.
    + intros [I|[[[<-|[]]|I]|[<-|[]]]]; [auto|right; eapply B_subject; [now left|exact Ds]|right; auto|right; eapply B_object; [now left|exact D]].
    + intros [I|B]; [auto|]. right.
      inversion B as [ts' t' n' I Q|ts' t' n' I Q|ts' t' s p o n' I T Q|ts' t' s p o n' I T Q|ts' t' s p o n' I T Q]; subst; destruct I as [<-|[]].
      * rewrite (depicts_det _ _ _ _ Ds Q). auto.
      * rewrite (depicts_det _ _ _ _ D Q). auto.
      * destruct K as [(N & _)|(s' & p' & o' & z & T' & Dz & -> & _)]; [destruct (N s p o T)|]. rewrite T in T'. injection T' as <- <- <-.
        rewrite (depicts_det _ _ _ _ Q (from_subject_right g s)). cbn. tauto.
      * destruct K as [(N & _)|(s' & p' & o' & z & T' & Dz & -> & _)]; [destruct (N s p o T)|]. rewrite T in T'. injection T' as <- <- <-.
        rewrite (depicts_predicate_det _ _ _ Q (from_predicate_right p)). cbn. tauto.
      * destruct K as [(N & _)|(s' & p' & o' & z & T' & Dz & -> & _)]; [destruct (N s p o T)|]. rewrite T in T'. injection T' as <- <- <-.
        rewrite (depicts_det _ _ _ _ Q Dz). cbn. tauto.
  - exists (from_subject (t_s t)), n, si, oi. split; [exact Ds|]. split; [exact D|]. split; [exact (Nw _ Is)|]. split; [exact Io|].
    intros x. rewrite add_edge_right, Eu. reflexivity.
  - intros N. apply add_edge_once. now rewrite Eu.
  - eexists. split; [exact Cu|]. intros ts vs U. destruct K as [(N & -> & ->)|(s & p & o & z & T & Dz & -> & ->)].
    + eexists. split; [eapply U_plain; eassumption|]. intros r m. unfold times. rewrite !count_occ_app. cbn [count_occ app]. repeat (destruct (use_dec _ _)); lia.
    + eexists. split; [eapply U_triple; try eassumption; [apply from_subject_right|apply from_predicate_right]|].
      intros r m. unfold times. rewrite !count_occ_app. cbn [count_occ app]. repeat (destruct (use_dec _ _)); lia.
Qed.
Definition arrow_of (g ts : graph) (l : list (vnode * nat)) (x : nat * vedge * nat) : Prop :=
  exists t a b, In t ts /\ depicts g (subject_term (t_s t)) a /\ depicts g (t_o t) b /\ depicts_arrow (t_p t) (snd (fst x)) /\
    In (a, fst (fst x)) l /\ In (b, snd x) l.
Lemma all_right g ts : forall v v', wf v -> (forall t, In t ts -> exact_term (t_o t)) -> create_all g ts v = Ok v' ->
  wf v' /\ (forall x, In x (nodes v) -> In x (nodes v')) /\ (forall n, known v' n <-> known v n \/ boxed g ts n) /\
  (forall x, In x (edges v') <-> In x (edges v) \/ arrow_of g ts (nodes v') x) /\ (NoDup (edges v) -> NoDup (edges v')) /\
  exists us, uses g ts us /\ forall r n, num r n v' = num r n v + times us r n.
Proof.
  induction ts as [|t ts IH]; intros v v' W X E; cbn in E.
  - injection E as <-. split; [exact W|]. split; [auto|]. split; [|split; [|split; [auto|]]].
    + intros n. split; [auto|]. intros [H|B]; [exact H|]. inversion B as [ts' t' n' I|ts' t' n' I|ts' t' s p o n' I|ts' t' s p o n' I|ts' t' s p o n' I]; subst; destruct I.
    + intros x. split; [auto|]. intros [H|(t & a & b & [] & _)]. exact H.
    + exists []. split; [constructor|]. intros r n. cbn. lia.
  - destruct (create_triple g t v) as [w| |] eqn:F; try discriminate.
    destruct (triple_right g t v w W (X t (or_introl eq_refl)) F) as (Ww & Nw & Kw & (a & b & i & j & Da & Db & Ia & Ib & Ew) & Ow & us & Cw & Uw).
    destruct (IH w v' Ww (fun u I => X u (or_intror I)) E) as (W' & N' & K' & E' & O' & vs & U' & C').
    split; [exact W'|]. split; [auto|]. split; [|split; [|split; [auto|]]].
    + intros n. rewrite K', Kw, (boxed_cons g t ts). tauto.
    + intros x. rewrite E', Ew. split.
      * intros [[->|H]|(u & c & d & I & R)]; [right|auto|right; exists u, c, d; split; [now right|exact R]].
        exists t, a, b. cbn. split; [auto|]. split; [exact Da|]. split; [exact Db|]. split; [apply from_iri_right|]. auto.
      * intros [H|(u & c & d & [<-|I] & R)]; [auto| |right; exists u, c, d; auto].
        left. left. destruct R as (Dc & Dd & De & Ic & Id). rewrite (depicts_det _ _ _ _ Dc Da) in Ic. rewrite (depicts_det _ _ _ _ Dd Db) in Id.
        destruct x as [[k e] l]. cbn in *. rewrite (depicts_arrow_det _ _ _ De (from_iri_right _)).
        pose proof (In_id_in _ _ _ (proj1 W') Ic). pose proof (In_id_in _ _ _ (proj1 W') (N' _ Ia)).
        pose proof (In_id_in _ _ _ (proj1 W') Id). pose proof (In_id_in _ _ _ (proj1 W') (N' _ Ib)). congruence.
    + destruct (Uw ts vs U') as (ws & U & C). exists ws. split; [exact U|]. intros r n. rewrite C', Cw, C. lia.
Qed.

(* C100.  The full statement: every graph is drawn, with one box for each term that is a subject, an object or a part of a triple term that is an object, and with
   one arrow for each triple.  It holds for graphs without triple terms in triple terms whose literals are kept apart by how they are shown. *)
Theorem C100_draws_partial g : (exists v, from_rdf g = Ok v) <-> forall t, In t g -> drawable (t_o t).
Proof. apply create_all_ok. Qed.
Theorem C100_picture_partial g : exact_graph g -> exists v, from_rdf g = Ok v /\
  NoDup (List.map fst (nodes v)) /\ NoDup (List.map snd (nodes v)) /\
  (forall n, In n (List.map fst (nodes v)) <-> boxed g g n) /\
  NoDup (edges v) /\
  (forall i e j, In (i, e, j) (edges v) <-> exists t a b, In t g /\ depicts g (subject_term (t_s t)) a /\ depicts g (t_o t) b /\ depicts_arrow (t_p t) e /\
     In (a, i) (nodes v) /\ In (b, j) (nodes v)) /\
  exists us, uses g g us /\ forall r n, number r (match usage_in n (usages v) with Some u => u | None => none end) = count_occ use_dec us (r, n).
Proof.
  intros X. destruct (proj2 (C100_draws_partial g)) as (v & E). { intros t I. apply exact_drawable. exact (X t I). }
  exists v. split; [exact E|].
  assert (W0 : wf empty) by (split; [constructor|reflexivity]).
  destruct (all_right g g empty v W0 X E) as (W & _ & K & Ed & O & us & U & C).
  split; [exact (proj1 W)|]. split; [rewrite (proj2 W); apply seq_NoDup|]. split; [|split; [apply O; constructor|split]].
  - intros n. specialize (K n). unfold known in K. rewrite K. cbn. tauto.
  - intros i e j. rewrite Ed. cbn. split; [intros [[]|H]; exact H|auto].
  - exists us. split; [exact U|]. intros r n. specialize (C r n). unfold num, times in C. rewrite C. destruct r; reflexivity.
Qed.
(* different terms have different boxes *)
Theorem C100_apart_partial g t u a b n : told_apart g -> In t g -> In u g ->
  (a = subject_term (t_s t) \/ a = t_o t) -> (b = subject_term (t_s u) \/ b = t_o u) -> depicts g a n -> depicts g b n -> a = b.
Proof.
  intros T It Iu A B Da Db.
  assert (P : forall p q m, depicts_predicate p m -> depicts_predicate q m -> p = q).
  { intros p q m X Y. inversion X; subst; inversion Y; subst; [reflexivity|]. now apply (app_one_inj ">"). }
  assert (S : forall s, literal_of (subject_term s) = None) by (intros [i|i]; reflexivity).
  assert (G : forall a b, (forall l k c d, literal_of a = Some l -> literal_of b = Some k -> convert l = Some c -> convert k = Some d -> show c = show d -> l = k) ->
    forall n, depicts g a n -> depicts g b n -> a = b).
  { clear - P. assert (Ss : forall s s' m, depicts g (subject_term s) m -> depicts g (subject_term s') m -> s = s').
    { intros [i|i] [j|j] m X Y; inversion X; subst; inversion Y; subst; reflexivity. }
    induction a as [i|i|l|s p o IH]; intros b H n X Y.
    - inversion X; subst; inversion Y; subst; reflexivity.
    - inversion X; subst; inversion Y; subst; reflexivity.
    - inversion X as [| |l' c E| | ]; subst. inversion Y as [| |k d E'| | ]; subst. f_equal. eapply (H l k c d); cbn; auto.
    - inversion X as [| | |s1 p1 o1 a1 b1 c1 I1 S1 P1 O1|s1 p1 o1 a1 b1 c1 I1 S1 P1 O1]; subst;
        inversion Y as [| | |s2 p2 o2 a2 b2 c2 I2 S2 P2 O2|s2 p2 o2 a2 b2 c2 I2 S2 P2 O2]; subst;
        (assert (o = o2) by (eapply IH; [|exact O1|exact O2]; exact H)); rewrite (Ss _ _ _ S1 S2), (P _ _ _ P1 P2); congruence. }
  eapply G; [|exact Da|exact Db]. intros l k c d El Ek Cl Ck Sh. destruct A as [-> | ->]; [rewrite S in El; discriminate|].
  destruct B as [-> | ->]; [rewrite S in Ek; discriminate|]. exact (T t u l k c d It Iu El Ek Cl Ck Sh).
Qed.

(* The diagram *)
Definition parts_known (v : vgraph) (n : vnode) : Prop :=
  match n with Asserted s p o | NonAsserted s p o => known v s /\ known v p /\ known v o | _ => True end.
Definition whole (v : vgraph) : Prop := forall n, known v n -> parts_known v n /\ (is_pred n -> 0 < num InPredicate n v).
Lemma whole_grows v ns us v' : whole v -> grows v ns us v' ->
  (forall n, In n ns -> parts_known v' n /\ (is_pred n -> In (InPredicate, n) us)) -> whole v'.
Proof.
  intros H (_ & A & K & C & _) N n I. apply K in I. destruct I as [I|I].
  - destruct (H n I) as [P Q]. split.
    + destruct n; cbn in *; try exact Logic.I; rewrite !K; tauto.
    + intros X. rewrite C. specialize (Q X). lia.
  - destruct (N n I) as [P Q]. split; [exact P|]. intros X. rewrite C. specialize (Q X). unfold times.
    apply (count_occ_In use_dec) in Q. lia.
Qed.
Lemma whole_triple g t v v' : wf v -> whole v -> create_triple g t v = Ok v' -> wf v' /\ whole v'.
Proof.
  intros W H E. destruct (create_triple_step _ _ _ _ W E) as (w & n & w' & si & oi & G & F & Q).
  assert (Hw : whole w).
  { apply (whole_grows _ _ _ _ H G). intros m [<-|[]]. destruct (t_s t); cbn; split; try exact Logic.I; intros []. }
  pose proof (grows_wf _ _ _ _ G) as Ww.
  assert (X : wf w' /\ whole w' /\ (parts_known w' n /\ ~ is_pred n)).
  { destruct (from_term_grows _ _ _ _ _ Ww F) as [(I & -> & _)|(s & p & o & o' & x & z & _ & _ & _ & _ & Iz & N & Gz)].
    - split; [exact Ww|]. split; [exact Hw|]. destruct n; cbn in *; tauto.
    - split; [exact (grows_wf _ _ _ _ Gz)|]. split.
      + apply (whole_grows _ _ _ _ Hw Gz). intros m [<-|[<-|[<-|[]]]].
        * destruct s; cbn; split; try exact Logic.I; intros [].
        * split; [|cbn; auto]. unfold from_predicate. destruct (String.eqb p reifies); exact Logic.I.
        * split; [destruct z; exact Logic.I || destruct Iz|]. intros Y. destruct z; cbn in Iz, Y; tauto.
      + destruct Gz as (_ & _ & K & _). destruct N as [-> | ->]; cbn; rewrite !K; cbn; tauto. }
  destruct X as (W' & H' & P & N). destruct (Q W') as (u & Gu & -> & _). split; [exact (grows_wf _ _ _ _ Gu)|].
  assert (Hu : whole u).
  { apply (whole_grows _ _ _ _ H' Gu). intros m [<-|[]]. split; [|intros Y; contradiction].
    destruct Gu as (_ & _ & K & _). destruct n; cbn in *; try exact Logic.I; rewrite !K; tauto. }
  exact Hu.
Qed.
Lemma whole_all g ts : forall v v', wf v -> whole v -> create_all g ts v = Ok v' -> wf v' /\ whole v'.
Proof.
  induction ts as [|t ts IH]; cbn; intros v v' W H E; [injection E as <-; auto|].
  destruct (create_triple g t v) as [w| |] eqn:F; try discriminate. destruct (whole_triple _ _ _ _ W H F). eauto.
Qed.
Theorem C100_diagram g v : from_rdf g = Ok v -> exists d, as_plantuml v = Some d /\
  (forall i n, In (i, n) (boxes d) <-> In (n, i) (nodes v)) /\ arrows d = edges v /\
  (forall i r j, In (i, r, j) (parts d) <-> exists n s p o, In (n, i) (nodes v) /\ (n = Asserted s p o \/ n = NonAsserted s p o) /\
     In (match r with PSubject => s | PPredicate => p | PObject => o end, j) (nodes v)).
Proof.
  intros E. destruct (whole_all g g empty v) as [W H]; [split; [constructor|reflexivity]|intros n []|exact E|].
  assert (In_n : forall n i, In (n, i) (nodes v) -> known v n) by (intros n i I; apply in_map_iff; exists (n, i); auto).
  assert (Id : forall n, known v n -> exists i, id_in n (nodes v) = Some i).
  { intros n K. destruct (id_in n (nodes v)) eqn:X; [eauto|]. apply id_in_none in X. contradiction. }
  assert (P : forall l, incl l (nodes v) -> exists ps, all_parts v l = Some ps /\ forall i r j, In (i, r, j) ps <-> exists n s p o, In (n, i) l /\
     (n = Asserted s p o \/ n = NonAsserted s p o) /\ In (match r with PSubject => s | PPredicate => p | PObject => o end, j) (nodes v)).
  { induction l as [|[n i] l IH]; intros S.
    - exists []. split; [reflexivity|]. intros i r j. split; [intros []|intros (n & s & p & o & [] & _)].
    - destruct IH as (ps & Ep & Hp); [intros x I; apply S; now right|]. cbn [all_parts]. rewrite Ep.
      assert (K : known v n) by (apply (In_n n i), S; now left). destruct (H n K) as [Q _].
      assert (T : forall s p o, (n = Asserted s p o \/ n = NonAsserted s p o) -> exists a b c, parts_of v (n, i) = Some [(i, PSubject, a); (i, PPredicate, b); (i, PObject, c)] /\
        id_in s (nodes v) = Some a /\ id_in p (nodes v) = Some b /\ id_in o (nodes v) = Some c).
      { intros s p o N. assert (Q' : known v s /\ known v p /\ known v o) by (destruct N as [-> | ->]; exact Q). destruct Q' as (A & B & C).
        destruct (Id _ A) as (a & Ea), (Id _ B) as (b & Eb), (Id _ C) as (c & Ec). exists a, b, c. split; [|auto].
        unfold parts_of. cbn [fst snd]. destruct N as [-> | ->]; rewrite Ea, Eb, Ec; reflexivity. }
      assert (D : (exists s p o, n = Asserted s p o \/ n = NonAsserted s p o) \/ (parts_of v (n, i) = Some [] /\ forall s p o, ~ (n = Asserted s p o \/ n = NonAsserted s p o))).
      { destruct n; try (right; split; [reflexivity|intros s' p' o' [X|X]; discriminate]); left; eauto. }
      destruct D as [(s & p & o & N)|[En Nn]].
      + destruct (T s p o N) as (a & b & c & -> & Ea & Eb & Ec). eexists. split; [reflexivity|]. intros k r j. rewrite in_app_iff, Hp. split.
        * intros [I|(m & s' & p' & o' & I & R)]; [|exists m, s', p', o'; split; [now right|exact R]].
          exists n, s, p, o. destruct I as [I|[I|[I|[]]]]; injection I as <- <- <-; (split; [now left|]); (split; [exact N|]); now apply id_in_In.
        * intros (m & s' & p' & o' & [I|I] & M & J); [|right; exists m, s', p', o'; auto]. left. injection I as <- <-.
          assert (s' = s /\ p' = p /\ o' = o) as (-> & -> & ->) by (destruct N as [-> | ->], M as [M|M]; try discriminate; injection M as <- <- <-; auto).
          apply (In_id_in _ _ _ (proj1 W)) in J. destruct r; cbn; [left|right; left|right; right; left]; congruence.
      + rewrite En. exists ps. split; [reflexivity|]. intros k r j. rewrite Hp. split.
        * intros (m & s & p & o & I & R). exists m, s, p, o. split; [now right|exact R].
        * intros (m & s & p & o & [I|I] & M & J); [injection I as <- <-; destruct (Nn _ _ _ M)|]. exists m, s, p, o. auto. }
  destruct (P (nodes v) (incl_refl _)) as (ps & Ep & Hp). unfold as_plantuml. rewrite Ep. eexists. split; [reflexivity|]. cbn [boxes arrows parts].
  split; [|split; [reflexivity|exact Hp]]. intros i n. rewrite in_map_iff. split.
  - intros ([m j] & [= <- <-] & I). apply filter_In in I. exact (proj1 I).
  - intros I. exists (n, i). split; [reflexivity|]. apply filter_In. split; [exact I|]. cbn [fst].
    destruct (H n (In_n _ _ I)) as [_ Q]. unfold show_node. unfold num in Q.
    destruct n; try reflexivity; specialize (Q Logic.I); destruct (usage_in _ (usages v)) as [u|]; try (cbn in Q; lia);
      unfold in_triple; cbn [number] in Q; apply orb_true_iff; left; apply orb_true_iff; left; apply Nat.ltb_lt; exact Q.
Qed.
End lib.
Print Assumptions C100_draws_partial.
Print Assumptions C100_picture_partial.
Print Assumptions C100_apart_partial.
Print Assumptions C100_diagram.

(* A library of literals as in the source: numbers of type long and short lose leading zeros and are shown without type (numeric_literal.rs:616-636) *)
Open Scope string_scope.
Definition long := "http://www.w3.org/2001/XMLSchema#long".
Definition short := "http://www.w3.org/2001/XMLSchema#short".
Fixpoint digits (s : string) : string := match s with String "0" ((String _ _) as s) => digits s | s => s end.
Definition numeric (l : literal) : bool := String.eqb (datatype l) long || String.eqb (datatype l) short.
#[local] Instance numbers : lib := {
  qualify i := "<" ++ i ++ ">";
  concrete := literal;
  convert l := Some (if numeric l then {| lexical := digits (lexical l); datatype := datatype l; lang := lang l |} else l);
  show c := if numeric c then lexical c else """" ++ lexical c ++ """^^" ++ datatype c;
  back c := c }.
Definition lit (s d : string) : term := TLit {| lexical := s; datatype := d; lang := None |}.
Definition T (s p : string) (o : term) : triple := {| t_s := SIri s; t_p := p; t_o := o |}.
Definition g100 : graph :=
  [T "a" "p" (lit "1" long); T "a" "q" (TIri "b"); T "c" reifies (TTriple (SIri "a") "p" (lit "1" long)); T "d" reifies (TTriple (SIri "b") "q" (TIri "a"))].
Example C100_met : exact_graph g100 /\ told_apart g100 /\ (forall t, In t g100 -> drawable (t_o t)) /\
  exists v, from_rdf g100 = Ok v /\
    nodes v = [(VIri "<a>" "a", 0); (VLit "1", 1); (VIri "<b>" "b", 2); (VIri "<c>" "c", 3); (VPred "<p>" "<p>", 4);
               (Asserted (VIri "<a>" "a") (VPred "<p>" "<p>") (VLit "1"), 5); (VIri "<d>" "d", 6); (VPred "<q>" "<q>", 7);
               (NonAsserted (VIri "<b>" "b") (VPred "<q>" "<q>") (VIri "<a>" "a"), 8)]%list /\
    edges v = [(0, EIri "<p>" "p", 1); (0, EIri "<q>" "q", 2); (3, EReifies, 5); (6, EReifies, 8)]%list /\
    option_map parts (as_plantuml v) = Some [(5, PSubject, 0); (5, PPredicate, 4); (5, PObject, 1); (8, PSubject, 2); (8, PPredicate, 7); (8, PObject, 0)]%list.
Proof.
  split; [|split; [|split]].
  - intros t [<-|[<-|[<-|[<-|[]]]]]; cbn; try exact Logic.I; [discriminate|]. eexists. split; reflexivity.
  - intros t u l k c d It Iu. destruct It as [<-|[<-|[<-|[<-|[]]]]]; cbn; try discriminate; intros E; injection E as <-;
      (destruct Iu as [<-|[<-|[<-|[<-|[]]]]]; cbn; try discriminate; intros E; injection E as <-; reflexivity).
  - intros t [<-|[<-|[<-|[<-|[]]]]]; cbn; try exact Logic.I; [discriminate|]. eexists. split; [reflexivity|discriminate].
  - eexists. split; [vm_compute; reflexivity|]. split; [vm_compute; reflexivity|]. split; vm_compute; reflexivity.
Qed.
(* A triple term in a triple term is not drawn: the program stops. *)
Theorem C100_nested_refuted : exists g, from_rdf g = Panic.
Proof. exists [T "a" reifies (TTriple (SIri "a") "p" (TTriple (SIri "b") "q" (TIri "c")))]. vm_compute. reflexivity. Qed.
Print Assumptions C100_nested_refuted.
(* Literals of different types that are shown alike have one box. *)
Theorem C100_apart_refuted : exists g v, from_rdf g = Ok v /\ (exists t u, In t g /\ In u g /\ t_o t <> t_o u) /\
  List.length g = 2 /\ List.length (nodes v) = 2 /\ List.length (edges v) = 1.
Proof.
  exists [T "a" "p" (lit "1" long); T "a" "p" (lit "1" short)]. eexists. split; [vm_compute; reflexivity|]. split; [|repeat split].
  eexists _, _. split; [left; reflexivity|]. split; [right; left; reflexivity|]. discriminate.
Qed.
Print Assumptions C100_apart_refuted.
(* A triple term is drawn as not asserted although the graph has it, when its literal changes in the conversion. *)
Theorem C100_asserted_refuted : exists g v s p o a b c, from_rdf g = Ok v /\
  In {| t_s := s; t_p := p; t_o := o |} g /\ (exists x q, In (T x q (TTriple s p o)) g) /\
  In (NonAsserted a b c) (List.map fst (nodes v)) /\ ~ exists a b c, In (Asserted a b c) (List.map fst (nodes v)).
Proof.
  exists [T "a" "p" (lit "01" long); T "c" reifies (TTriple (SIri "a") "p" (lit "01" long))]. eexists. exists (SIri "a"), "p", (lit "01" long). do 3 eexists.
  split; [vm_compute; reflexivity|]. split; [left; reflexivity|]. split; [exists "c", reifies; right; left; reflexivity|].
  split; [cbn; do 4 right; left; reflexivity|]. intros (a & b & c & H). vm_compute in H. repeat (destruct H as [H|H]; [discriminate|]). destruct H.
Qed.
Print Assumptions C100_asserted_refuted.
(* The box of a predicate links to the IRI with its brackets; those of subjects and the arrows to the IRI. *)
Theorem C100_link_refuted : exists g v l u, from_rdf g = Ok v /\ In (VPred l u) (List.map fst (nodes v)) /\
  (exists t s o, In t g /\ t_o t = TTriple s "p" o) /\ (forall t s p o, In t g -> t_o t = TTriple s p o -> p = "p") /\ u <> "p".
Proof.
  exists [T "c" "q" (TTriple (SIri "a") "p" (TIri "b"))]. do 3 eexists. split; [vm_compute; reflexivity|]. split; [cbn; do 2 right; left; reflexivity|].
  split; [eexists _, _, _; split; [left; reflexivity|reflexivity]|]. split; [|discriminate]. intros t s p o [<-|[]] [= _ <- _]. reflexivity.
Qed.
Print Assumptions C100_link_refuted.
