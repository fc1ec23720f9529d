(** Building schemas from their text. *)
From Coq Require Import List Bool Arith ZArith NArith Lia.
Import ListNotations.
From Verif Require Import PgsModel PgsSpec PgsLemmas PgsMain PgsProps PgModel PgSpec PgLemmas PgBuild PgMerge PgProps PgbModel PgbSpec PgbLemmas.

(** ** C66 *)

Definition numbered (sc : schema) : Prop :=
  (forall x i, lookup (node_names sc) x = Some i -> i < node_counter sc) /\
  (forall x i, lookup (edge_names sc) x = Some i -> i < edge_counter sc) /\
  (forall i, lookup (edge_names sc) (blank i) <> None -> i < edge_counter sc).

Lemma ident_blank t i : ident t <> blank i.
Proof. unfold ident, blank. lia. Qed.
Lemma ident_inj a b : ident a = ident b -> a = b.
Proof. unfold ident. lia. Qed.
Lemma blank_inj a b : blank a = blank b -> a = b.
Proof. unfold blank. lia. Qed.

Lemma numbered_new : numbered schema_new.
Proof. split; [|split]; cbn; congruence. Qed.

Lemma numbered_node sc x s : numbered sc -> numbered (add_node_spec sc x s).
Proof.
  intros (A & B & C). split; [|split; assumption]. cbn [add_node_spec node_names node_counter].
  intros y i. rewrite lookup_put. destruct (y =? x); [intros [= <-]; lia|]. intro H. specialize (A _ _ H). lia.
Qed.

Lemma defined_node sc x s y sp : numbered sc ->
  (defined (add_node_spec sc x s) y sp <-> (y = x /\ sp = s) \/ (y <> x /\ defined sc y sp)).
Proof.
  intros (A & _ & _). unfold defined. cbn [add_node_spec node_names node_types].
  split.
  - intros [i [L1 L2]]. rewrite lookup_put in L1. rewrite lookup_put in L2. destruct (y =? x) eqn:E.
    + apply Nat.eqb_eq in E as ->. injection L1 as <-. rewrite Nat.eqb_refl in L2. injection L2 as <-. auto.
    + apply Nat.eqb_neq in E. specialize (A _ _ L1). destruct (i =? node_counter sc) eqn:Q; [apply Nat.eqb_eq in Q; lia|].
      right. split; [exact E|]. eauto.
  - intros [[-> ->]|[N [i [L1 L2]]]].
    + exists (node_counter sc). rewrite !lookup_put, !Nat.eqb_refl. auto.
    + exists i. rewrite !lookup_put. apply Nat.eqb_neq in N. rewrite N. specialize (A _ _ L1).
      destruct (i =? node_counter sc) eqn:Q; [apply Nat.eqb_eq in Q; lia|]. auto.
Qed.

Lemma edge_spec_ok sc x e : numbered sc -> (forall i, x = blank i -> i <= edge_counter sc) -> lookup (edge_names sc) x = None ->
  exists sc', add_edge_spec sc x e = Ok sc' /\ numbered sc' /\ node_names sc' = node_names sc /\ node_types sc' = node_types sc /\
    (forall y, lookup (edge_names sc') y = None <-> y <> x /\ lookup (edge_names sc) y = None) /\
    (forall y et, edge_defined sc' y et <-> (y = x /\ et = e) \/ (y <> x /\ edge_defined sc y et)).
Proof.
  intros (A & B & C) Hb L. unfold add_edge_spec. rewrite L. eexists. split; [reflexivity|]. split; [|split; [|split; [|split]]].
  - split; [|split]; cbn [node_names node_counter edge_names edge_counter].
    + exact A.
    + intros y i. rewrite lookup_put. destruct (y =? x); [intros [= <-]; lia|]. intro H. specialize (B _ _ H). lia.
    + intro i. rewrite lookup_put. destruct (blank i =? x) eqn:E.
      * apply Nat.eqb_eq in E. intros _. symmetry in E. specialize (Hb _ E). lia.
      * intro H. specialize (C _ H). lia.
  - reflexivity.
  - reflexivity.
  - intro y. cbn [edge_names]. rewrite lookup_put. destruct (y =? x) eqn:E.
    + apply Nat.eqb_eq in E as ->. split; [discriminate|]. intros [H _]. now destruct H.
    + apply Nat.eqb_neq in E. tauto.
  - intros y et. unfold edge_defined. cbn [edge_names edge_types]. split.
    + intros [i [L1 L2]]. rewrite lookup_put in L1. rewrite lookup_put in L2. destruct (y =? x) eqn:E.
      * apply Nat.eqb_eq in E as ->. injection L1 as <-. rewrite Nat.eqb_refl in L2. injection L2 as <-. auto.
      * apply Nat.eqb_neq in E. specialize (B _ _ L1). destruct (i =? edge_counter sc) eqn:Q; [apply Nat.eqb_eq in Q; lia|].
        right. split; [exact E|]. eauto.
    + intros [[-> ->]|[N [i [L1 L2]]]].
      * exists (edge_counter sc). rewrite !lookup_put, !Nat.eqb_refl. auto.
      * exists i. rewrite !lookup_put. apply Nat.eqb_neq in N. rewrite N. specialize (B _ _ L1).
        destruct (i =? edge_counter sc) eqn:Q; [apply Nat.eqb_eq in Q; lia|]. auto.
Qed.

Section File.
  Variable dates : text -> option Z.
  Notation lps := (get_label_property_spec dates).

  Definition builds (s : gspec) : Prop := lps s <> None.

  (** The state after the declarations [f]. *)
  Record state (f : list gcreate) (sc : schema) : Prop := mkState {
    st_numbered : numbered sc;
    st_free : forall t, lookup (edge_names sc) (ident t) = None <-> ~ In t (edge_idents f)
  }.

  Definition edges_ok (f : list gcreate) (sc : schema) : Prop :=
    forall t et, edge_defined sc (ident t) et <->
      exists a s b, In (GEdge a (Some t) s b) f /\ lps a = Some (et_source et) /\ lps s = Some (et_edge et) /\ lps b = Some (et_target et).

  Lemma idents_snoc f c : edge_idents (f ++ [c]) = edge_idents f ++ edge_idents [c].
  Proof. unfold edge_idents. apply flat_map_app. Qed.
  Lemma node_idents_snoc f c : node_idents (f ++ [c]) = node_idents f ++ node_idents [c].
  Proof. unfold node_idents. apply flat_map_app. Qed.

  Definition step (c : gcreate) (sc sc' : schema) : Prop :=
    forall rest, get_create_types dates (c :: rest) sc = get_create_types dates rest sc'.

  (** One declaration: it goes through exactly when its parts can be built and it is not
      an edge type with a name that is there. *)
  Lemma step_ok f sc c : state f sc ->
    (forall t, In t (edge_idents [c]) -> ~ In t (edge_idents f)) -> each_spec builds c ->
    exists sc', step c sc sc' /\ state (f ++ [c]) sc' /\
      (names_ok dates f sc -> (forall t, In t (node_idents [c]) -> ~ In t (node_idents f)) -> names_ok dates (f ++ [c]) sc') /\
      (edges_ok f sc -> edges_ok (f ++ [c]) sc').
  Proof.
    intros [Nu Fr] Free B. destruct c as [t s|a t s b|]; cbn [each_spec] in B; [| |contradiction].
    - unfold builds in B. destruct (lps s) as [sp|] eqn:E; [|congruence].
      set (x := match t with Some t => ident t | None => blank (node_counter sc) end).
      exists (add_node_spec sc x sp). split; [|split; [|split]].
      + intro rest. cbn [get_create_types]. rewrite E. destruct t; reflexivity.
      + split; [now apply numbered_node|]. intro u. rewrite idents_snoc. cbn [edge_idents flat_map]. rewrite app_nil_r. apply Fr.
      + intros Nm Fn u sp'. rewrite (defined_node _ _ _ _ _ Nu). split.
        * intros [[E1 ->]|[N D]].
          -- unfold x in E1. destruct t as [t|]; [|now destruct (ident_blank u (node_counter sc))]. apply ident_inj in E1 as ->.
             exists s. split; [apply in_or_app; right; now left|exact E].
          -- apply Nm in D as [s' [I Es]]. exists s'. split; [apply in_or_app; now left|exact Es].
        * intros [s' [I Es]]. apply in_app_or in I as [I|[I|[]]].
          -- right. split.
             ++ unfold x. destruct t as [t|]; [|apply ident_blank]. intro E1. apply ident_inj in E1 as ->.
                apply (Fn t); [now left|]. unfold node_idents. apply in_flat_map. eexists. split; [exact I|now left].
             ++ apply Nm. eauto.
          -- injection I as -> ->. left. unfold x. split; [reflexivity|congruence].
      + intros Ed u et. transitivity (edge_defined sc (ident u) et); [reflexivity|]. rewrite (Ed u et). split.
        * intros (a & m & b & I & H). exists a, m, b. split; [apply in_or_app; now left|exact H].
        * intros (a & m & b & I & H). apply in_app_or in I as [I|[I|[]]]; [|discriminate]. exists a, m, b. auto.
    - destruct B as (Ba & Bs & Bb). unfold builds in *.
      destruct (lps a) as [sa|] eqn:Ea; [|congruence]. destruct (lps s) as [ss|] eqn:Es; [|congruence]. destruct (lps b) as [sb|] eqn:Eb; [|congruence].
      set (x := match t with Some t => ident t | None => blank (edge_counter sc) end).
      assert (L : lookup (edge_names sc) x = None).
      { unfold x. destruct t as [t|].
        - apply Fr. apply Free. now left.
        - destruct (lookup (edge_names sc) (blank (edge_counter sc))) eqn:Q; [|reflexivity].
          destruct Nu as (_ & _ & C). specialize (C (edge_counter sc)). rewrite Q in C. specialize (C ltac:(discriminate)). lia. }
      assert (Hb : forall i, x = blank i -> i <= edge_counter sc).
      { unfold x. destruct t as [t|]; intros i H; [now destruct (ident_blank t i)|]. apply blank_inj in H. lia. }
      destruct (edge_spec_ok sc x (mkEtype sa ss sb) Nu Hb L) as (sc' & E & Nu' & E1 & E2 & E3 & E4).
      exists sc'. split; [|split; [|split]].
      + intro rest. cbn [get_create_types]. rewrite Ea, Eb, Es. unfold x in E. destruct t as [t|]; [now rewrite E|].
        unfold add_blank_edge_spec. now rewrite E.
      + split; [exact Nu'|]. intro u. rewrite E3, idents_snoc, Fr. split.
        * intros [N F] I. apply in_app_or in I as [I|I]; [auto|]. destruct t as [t|]; [|destruct I]. destruct I as [<-|[]]. now apply N.
        * intro H. split.
          -- unfold x. destruct t as [t|]; [|apply ident_blank]. intro Q. apply ident_inj in Q as ->. apply H, in_or_app. right. now left.
          -- intro I. apply H, in_or_app. now left.
      + intros Nm _ u sp. unfold defined. rewrite E1, E2. transitivity (defined sc (ident u) sp); [reflexivity|]. rewrite (Nm u sp). split.
        * intros [s' [I H]]. exists s'. split; [apply in_or_app; now left|exact H].
        * intros [s' [I H]]. apply in_app_or in I as [I|[I|[]]]; [eauto|discriminate].
      + intros Ed u et. rewrite E4. split.
        * intros [[Q ->]|[N D]].
          -- unfold x in Q. destruct t as [t|]; [|now destruct (ident_blank u (edge_counter sc))]. apply ident_inj in Q as ->.
             exists a, s, b. split; [apply in_or_app; right; now left|]. auto.
          -- apply Ed in D as (a' & m & b' & I & H). exists a', m, b'. split; [apply in_or_app; now left|exact H].
        * intros (a' & m & b' & I & H1 & H2 & H3). apply in_app_or in I as [I|[I|[]]].
          -- right. split.
             ++ unfold x. destruct t as [t|]; [|apply ident_blank]. intro Q. apply ident_inj in Q as ->.
                apply (Free t); [now left|]. unfold edge_idents. apply in_flat_map. eexists. split; [exact I|now left].
             ++ apply Ed. exists a', m, b'. auto.
          -- injection I as <- -> <- <-. left. split; [reflexivity|]. destruct et as [x1 x2 x3]. cbn in *. congruence.
  Qed.

  Lemma step_fails f sc c rest : state f sc -> (exists sc', get_create_types dates (c :: rest) sc = Parsed sc') ->
    (forall t, In t (edge_idents [c]) -> ~ In t (edge_idents f)) /\ each_spec builds c.
  Proof.
    intros [Nu Fr] [sc' H]. destruct c as [t s|a t s b|]; cbn [get_create_types each_spec] in *; [| |discriminate].
    - split; [intros u []|]. unfold builds. destruct (lps s); discriminate || congruence.
    - unfold builds. destruct (lps a); [|discriminate]. destruct (lps b); [|discriminate]. destruct (lps s); [|discriminate].
      split; [|repeat split; discriminate]. intros u I. destruct t as [t|]; [|destruct I]. destruct I as [<-|[]].
      unfold add_edge_spec in H. destruct (lookup (edge_names sc) (ident t)) eqn:Q; [discriminate|]. now apply Fr.
  Qed.

  Lemma file_ok rest : forall f sc, state f sc ->
    ((exists sc', get_create_types dates rest sc = Parsed sc') <->
     NoDup (edge_idents rest) /\ (forall t, In t (edge_idents rest) -> ~ In t (edge_idents f)) /\ forall c, In c rest -> each_spec builds c) /\
    (forall sc', get_create_types dates rest sc = Parsed sc' ->
       (names_ok dates f sc -> NoDup (node_idents rest) -> (forall t, In t (node_idents rest) -> ~ In t (node_idents f)) -> names_ok dates (f ++ rest) sc') /\
       (edges_ok f sc -> edges_ok (f ++ rest) sc')).
  Proof.
    induction rest as [|c rest IH]; intros f sc St.
    - split.
      + split; [|intros _; exists sc; reflexivity]. intros _. split; [constructor|]. split; [intros t []|intros c []].
      + intros sc' [= <-]. rewrite app_nil_r. auto.
    - assert (SPLIT : edge_idents (c :: rest) = edge_idents [c] ++ edge_idents rest) by (unfold edge_idents; cbn [flat_map]; now rewrite app_nil_r).
      assert (SPLITN : node_idents (c :: rest) = node_idents [c] ++ node_idents rest) by (unfold node_idents; cbn [flat_map]; now rewrite app_nil_r).
      assert (ONE : NoDup (edge_idents [c])) by (destruct c as [?|? [?|] ? ?|]; cbn; repeat constructor; auto).
      assert (NDA : forall (l1 l2 : list name), NoDup (l1 ++ l2) -> NoDup l2 /\ forall t, In t l1 -> ~ In t l2).
      { intros l1 l2; induction l1 as [|y l1 IHl]; cbn [app]; intro H; [split; [exact H|intros t []]|].
        inversion H; subst. destruct (IHl H3) as [A B]. split; [exact A|]. intros t [<-|I]; [intro I; apply H2, in_or_app; now right|now apply B]. }
      assert (NDB : forall (l1 l2 : list name), NoDup l1 -> NoDup l2 -> (forall t, In t l1 -> ~ In t l2) -> NoDup (l1 ++ l2)).
      { intros l1 l2 H1 H2 H3; induction H1 as [|y l1 N _ IHl]; cbn [app]; [exact H2|]. constructor.
        - intro I. apply in_app_or in I as [I|I]; [auto|]. apply (H3 y); [now left|exact I].
        - apply IHl. intros t I. apply H3. now right. }
      split; [split|].
      + intro H. destruct (step_fails _ _ _ _ St H) as [Free B]. destruct (step_ok _ _ _ St Free B) as (sc1 & S1 & S2 & _).
        destruct H as [sc' H]. rewrite S1 in H. destruct (IH _ _ S2) as [[IH1 _] _].
        destruct (IH1 (ex_intro _ sc' H)) as (A1 & A2 & A3). rewrite SPLIT. split; [|split].
        * apply NDB; [exact ONE|exact A1|]. intros t I J. apply (A2 t J). rewrite idents_snoc. apply in_or_app. now right.
        * intros t I. apply in_app_or in I as [I|I]; [now apply Free|]. intro J. apply (A2 t I). rewrite idents_snoc. apply in_or_app. now left.
        * intros c' [<-|I]; auto.
      + rewrite SPLIT. intros (A1 & A2 & A3). destruct (NDA _ _ A1) as [A4 A5].
        destruct (step_ok f sc c St) as (sc1 & S1 & S2 & _); [intros t I; apply A2, in_or_app; now left|apply A3; now left|].
        rewrite S1. apply (IH _ _ S2). split; [exact A4|]. split.
        * intros t I J. rewrite idents_snoc in J. apply in_app_or in J as [J|J]; [apply (A2 t); [apply in_or_app; now right|exact J]|now apply (A5 t)].
        * intros c' I. apply A3. now right.
      + intros sc' H. destruct (step_fails _ _ _ _ St (ex_intro _ sc' H)) as [Free B]. destruct (step_ok _ _ _ St Free B) as (sc1 & S1 & S2 & S3 & S4).
        rewrite S1 in H. destruct (IH _ _ S2) as [_ IH2]. destruct (IH2 sc' H) as [P1 P2].
        rewrite <- app_assoc in P1, P2. cbn [app] in P1, P2. split; [|auto].
        intros Nm ND Fn. rewrite SPLITN in ND, Fn. destruct (NDA _ _ ND) as [N1 N2]. apply P1.
        * apply S3; [exact Nm|]. intros t I. apply Fn, in_or_app. now left.
        * exact N1.
        * intros t I J. rewrite node_idents_snoc in J. apply in_app_or in J as [J|J]; [apply (Fn t); [apply in_or_app; now right|exact J]|now apply (N2 t)].
  Qed.

  Lemma state_new : state [] schema_new.
  Proof. split; [apply numbered_new|]. intro t. cbn. tauto. Qed.
End File.

(** The text is accepted exactly when every literal makes sense and no edge type has the
    name of another (for texts without graph types in which nothing is passed over). *)
Theorem C66_accepts_partial dates f : (forall c, In c f -> each_spec kept c) ->
  ((exists sc, parse_pgs dates f = Parsed sc) <-> NoDup (edge_idents f) /\ forall c, In c f -> each_spec (readable dates) c).
Proof.
  intro K. unfold parse_pgs. destruct (file_ok dates f [] schema_new (state_new)) as [-> _].
  assert (E : (forall c, In c f -> each_spec (builds dates) c) <-> forall c, In c f -> each_spec (readable dates) c).
  { split; intros H c I; specialize (H c I); specialize (K c I); destruct c as [t s|a t s b|]; cbn [each_spec] in *; try contradiction.
    - now apply get_spec_read.
    - destruct H as (H1 & H2 & H3), K as (K1 & K2 & K3). split; [|split]; now apply get_spec_read.
    - now apply get_spec_read.
    - destruct H as (H1 & H2 & H3), K as (K1 & K2 & K3). split; [|split]; now apply get_spec_read. }
  rewrite E. cbn [edge_idents flat_map In]. tauto.
Qed.
Print Assumptions C66_accepts_partial.

Lemma parsed_all dates f sc : parse_pgs dates f = Parsed sc -> NoDup (node_idents f) ->
  names_ok dates f sc /\ edges_ok dates f sc /\ forall c, In c f -> each_spec (builds dates) c.
Proof.
  intros H N. destruct (file_ok dates f [] schema_new (state_new)) as [A B]. destruct (B sc H) as [B1 B2]. cbn [app] in B1, B2.
  split; [|split].
  - apply B1; [|exact N|intros t _ []]. intros t sp. split; [intros [i [L _]]; discriminate|intros [s [[] _]]].
  - apply B2. intros t et. split; [intros [i [L _]]; discriminate|intros (a & s & b & [] & _)].
  - apply A. eauto.
Qed.

(** Then the types of the schema are those declared, and a node conforms to one exactly
    when it conforms to the text of the declaration. *)
Theorem C66_nodes_partial dates f sc : (forall c, In c f -> each_spec kept c) -> NoDup (node_idents f) ->
  parse_pgs dates f = Parsed sc ->
  (forall t s, In (GNode (Some t) s) f -> exists sp, defined sc (ident t) sp /\
     forall rx n, conforming rx sc sp n <-> gconforming dates rx f s n) /\
  (forall t sp, defined sc (ident t) sp -> exists s, In (GNode (Some t) s) f).
Proof.
  intros K N H. destruct (parsed_all dates f sc H N) as (Nm & _ & B).
  assert (FK : file_kept f) by (intros t s I; exact (K _ I)).
  assert (FB : forall t s, In (GNode t s) f -> get_label_property_spec dates s <> None) by (intros t s I; exact (B _ I)).
  split.
  - intros t s I. pose proof (B _ I) as Bs. cbn [each_spec] in Bs. unfold builds in Bs.
    destruct (get_label_property_spec dates s) as [sp|] eqn:E; [|congruence]. exists sp. split; [apply Nm; eauto|].
    intros rx n. apply conforming_same; auto. exact (K _ I).
  - intros t sp D. apply Nm in D as [s [I _]]. eauto.
Qed.
Print Assumptions C66_nodes_partial.

Theorem C66_edges_partial dates f sc : (forall c, In c f -> each_spec kept c) -> NoDup (node_idents f) ->
  parse_pgs dates f = Parsed sc ->
  (forall t a s b, In (GEdge a (Some t) s b) f -> exists et, edge_defined sc (ident t) et /\
     forall rx n, (conforming rx sc (et_source et) n <-> gconforming dates rx f a n) /\
                  (conforming rx sc (et_edge et) n <-> gconforming dates rx f s n) /\
                  (conforming rx sc (et_target et) n <-> gconforming dates rx f b n)) /\
  (forall t et, edge_defined sc (ident t) et -> exists a s b, In (GEdge a (Some t) s b) f).
Proof.
  intros K N H. destruct (parsed_all dates f sc H N) as (Nm & Ed & B).
  assert (FK : file_kept f) by (intros t s I; exact (K _ I)).
  assert (FB : forall t s, In (GNode t s) f -> get_label_property_spec dates s <> None) by (intros t s I; exact (B _ I)).
  split.
  - intros t a s b I. pose proof (B _ I) as Bs. pose proof (K _ I) as Ks. cbn [each_spec] in Bs, Ks. unfold builds in Bs. destruct Bs as (B1 & B2 & B3), Ks as (K1 & K2 & K3).
    destruct (get_label_property_spec dates a) as [sa|] eqn:Ea; [|congruence].
    destruct (get_label_property_spec dates s) as [ss|] eqn:Es; [|congruence].
    destruct (get_label_property_spec dates b) as [sb|] eqn:Eb; [|congruence].
    exists (mkEtype sa ss sb). split; [apply Ed; exists a, s, b; auto|]. intros rx n. cbn [et_source et_edge et_target].
    split; [|split]; apply conforming_same; auto.
  - intros t et D. apply Ed in D as (a & s & b & I & _). eauto.
Qed.
Print Assumptions C66_edges_partial.

(** With the fragment of C59, validation of a node against a type of the text is right. *)
Theorem C66_validates_partial dates f sc rx t s n : (forall c, In c f -> each_spec kept c) -> NoDup (node_idents f) ->
  parse_pgs dates f = Parsed sc -> clear sc -> good_node n -> In (GNode (Some t) s) f ->
  exists v, conforms_node rx sc (length (node_names sc)) (ident t) n = Some v /\
    (is_right v = true <-> gconforming dates rx f s n).
Proof.
  intros K N H [C _] G I. destruct (C66_nodes_partial dates f sc K N H) as [D _]. destruct (D t s I) as [sp [D1 D2]].
  destruct (C _ _ D1) as (A & S & L & E & Li).
  destruct (C59_exact_partial rx sc (length (node_names sc)) (ident t) sp n D1 A S L E Li G (le_n _)) as [v [V1 V2]].
  exists v. split; [exact V1|]. now rewrite V2, D2.
Qed.
Print Assumptions C66_validates_partial.

(** What comes after the second type of a property is dropped: in
    [INTEGER & CHECK > 1 & CHECK < 5], the last condition. *)
Definition three : gtypes :=
  mkTypes (GKind KInteger None None)
    (Some (GInter (GCheck (GGT (GNumber [49%N]))) (Some (GInter (GCheck (GLT (GNumber [53%N]))) None)))).
Theorem C66_third_refuted : exists t s vs, (forall dates, get_type_spec dates t = Some s) /\
  forall dates rx, asks rx s vs /\ ~ gasks dates rx t vs.
Proof.
  exists three. eexists. exists [VInteger 9]. split; [reflexivity|]. intros dates rx. split.
  - cbn [asks allows length]. split.
    + split; [reflexivity|]. intros v [<-|[]]. eauto.
    + split; [exact Logic.I|]. intros v [<-|[]]. cbn [typed sat]. split; constructor. reflexivity.
  - unfold gasks, three. cbn [gt_more gt_first gthen gallows gchecked]. intros [_ H]. specialize (H _ (or_introl eq_refl)).
    destruct H as [_ [w [M B]]]. inversion M as [|? n N L| |]; subst. apply numeral_val in N as (_ & _ & ->).
    inversion B as [? ? Lt|]; subst. cbn in Lt. lia.
Qed.
Print Assumptions C66_third_refuted.

(** Properties without labels are dropped. *)
Theorem C66_unlabelled_refuted : exists f t s sc n, In (GNode (Some t) s) f /\ (forall dates, parse_pgs dates f = Parsed sc) /\
  forall dates rx, gconforming dates rx f s n /\ exists es, conforms_node rx sc 1 (ident t) n = Some (Left es).
Proof.
  set (s := mkGspec None (Some (GBase false 7 (mkTypes (GKind KInteger None None) None)))).
  exists [GNode (Some 3) s], 3, s. eexists. exists (mkNode [] [(7, [VInteger 4])]). split; [now left|]. split; [reflexivity|].
  intros dates rx. split; [|eexists; reflexivity].
  exists [], [(7, mkTypes (GKind KInteger None None) None)]. split; [constructor; constructor|]. split; [tauto|]. split.
  - intros k t [E|[]]. injection E as <- <-. exists [VInteger 4]. split; [now left|]. cbn. split; [reflexivity|]. split; [|exact Logic.I].
    intros v [<-|[]]. exact Logic.I.
  - intros k [vs [E|[]]]. injection E as <- <-. eexists. now left.
Qed.
Print Assumptions C66_unlabelled_refuted.

(** A node type declared again replaces the first without an error. *)
Theorem C66_again_refuted : exists f t s sc, In (GNode (Some t) s) f /\ (forall dates, parse_pgs dates f = Parsed sc) /\
  exists n, forall dates rx, gconforming dates rx f s n /\ exists es, conforms_node rx sc 2 (ident t) n = Some (Left es).
Proof.
  exists [GNode (Some 3) (mkGspec (Some (GLabel 8)) None); GNode (Some 3) (mkGspec (Some (GLabel 9)) None)], 3, (mkGspec (Some (GLabel 8)) None).
  eexists. split; [now left|]. split; [reflexivity|]. exists (mkNode [8] []). intros dates rx. split; [|eexists; reflexivity].
  exists [8], []. split; [constructor; constructor|]. split; [cbn; tauto|]. split; [intros k t []|intros k [vs []]].
Qed.
Print Assumptions C66_again_refuted.

(** A graph type makes the program panic. *)
Theorem C66_graph_types_refuted : exists f, forall dates, parse_pgs dates f = Panicked.
Proof. exists [GGraph]. reflexivity. Qed.
Print Assumptions C66_graph_types_refuted.

(** Quotes inside strings keep their backslash. *)
Theorem C66_escape_refuted : exists s b, spelled s b /\ forall dates, get_value dates (GString s) <> Some (VString b).
Proof.
  exists [34; 97; 92; 34; 34]%N, [97; 34]%N. split.
  - exists [97; 92; 34]%N. split; [reflexivity|]. constructor; [lia|]. constructor. constructor.
  - intros dates. cbn. congruence.
Qed.
Print Assumptions C66_escape_refuted.

Definition ex_file : list gcreate :=
  [GNode (Some 1) (mkGspec (Some (GLabel 11)) (Some (GBase true 21 (mkTypes (GKind KInteger (Some (GRange [48%N] (GMax [49%N; 48%N]))) None)
     (Some (GInter (GCheck (GGT (GNumber [51%N]))) None))))));
   GNode (Some 2) (mkGspec (Some (GConj (GType 1) (GLabel 12))) None);
   GEdge (mkGspec (Some (GType 1)) None) (Some 5) (mkGspec (Some (GLabel 13)) None) (mkGspec (Some (GType 2)) None)].
Example C66_met : (forall c, In c ex_file -> each_spec kept c) /\ NoDup (node_idents ex_file) /\ NoDup (edge_idents ex_file) /\
  (forall dates, exists sc, parse_pgs dates ex_file = Parsed sc) /\
  forall dates rx, gconforming dates rx ex_file (mkGspec (Some (GConj (GType 1) (GLabel 12))) None) (mkNode [11; 12] [(21, [VInteger 4])]).
Proof.
  split; [|split; [|split; [|split]]].
  - intros c [<-|[<-|[<-|[]]]]; cbn; try tauto. repeat split; try discriminate; exact Logic.I.
  - cbn. repeat constructor; cbn; lia.
  - cbn. repeat constructor; cbn; lia.
  - intro dates. eexists. reflexivity.
  - intros dates rx. eexists _, _. split; [|split; [|split]].
    + apply sc_labels. apply lc_conj; [|apply lc_label]. eapply lc_type; [now left|]. apply sc_both; [apply lc_label|apply gp_given].
    + cbn. tauto.
    + intros k t [E|[]]. injection E as <- <-. exists [VInteger 4]. split; [now left|]. cbn. split.
      * split; [|split; [|exact Logic.I]].
        -- split; [exists 0%N|exists 10%N]; (split; [apply numeral_val; split; [discriminate|]; split; [repeat constructor; lia|reflexivity]|lia]).
        -- intros v [<-|[]]. exact Logic.I.
      * assert (M : means dates (GNumber [51%N]) (VInteger 3)).
        { apply (me_number dates [51%N] 3%N); [apply numeral_val; split; [discriminate|]; split; [repeat constructor; lia|reflexivity]|unfold max_i32; lia]. }
        intros v [<-|[]]. split; exists (VInteger 3); (split; [exact M|constructor; lia]).
    + intros k [vs [E|[]]]. injection E as <- <-. eexists. now left.
Qed.
