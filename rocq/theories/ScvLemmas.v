(** Converted SHACL shapes: when there are any, and what they mean. *)
From Coq Require Import List Bool NArith ZArith Arith Lia Permutation Relations.
Import ListNotations.
From Verif Require Import EngineModel EngineSpec CompModel CompSpec MatSpec MatLemmas MatFinal TxFinal.
From Verif Require Import PathModel PathSpec ShaclModel ShaclSpec ScvModel ScvSpec.
From Verif Require ShcModel ShcLemmas.

Lemma code_decode k : ShcModel.code (ShcModel.decode k) = k.
Proof.
  unfold ShcModel.decode. pose proof (N.div_mod' k 4) as D. pose proof (N.mod_upper_bound k 4) as U.
  destruct (k mod 4)%N as [|[[q|q|]|[q|q|]|]] eqn:E; cbn [ShcModel.code]; try lia.
  unfold ShcModel.dec. pose proof (N.div_mod' (k / 4) 3) as D'. pose proof (N.mod_upper_bound (k / 4) 3) as U'.
  destruct ((k / 4) mod 3)%N as [|[[q|q|]|[q|q|]|]] eqn:E'; cbn [ShcModel.enc]; lia.
Qed.

(** ** loops *)
Lemma each_iff' {A B} (f : A -> res B) l : forall bs, each f l = Ok bs <-> Forall2 (fun a b => f a = Ok b) l bs.
Proof.
  induction l as [|a l IH]; intro bs; cbn [each]; [split; [intros [= <-]; constructor|inversion 1; reflexivity]|]. split.
  - destruct (f a) as [b| | |] eqn:E; cbn [bind]; try discriminate. destruct (each f l) as [r| | |] eqn:R; cbn [bind]; try discriminate.
    intros [= <-]. constructor; [exact E|]. apply IH. reflexivity.
  - inversion 1 as [|? b ? r E F]; subst. apply IH in F. rewrite E. cbn [bind]. rewrite F. reflexivity.
Qed.
Lemma each_ok {A B} (f : A -> res B) l : (exists bs, each f l = Ok bs) <-> forall a, In a l -> exists b, f a = Ok b.
Proof.
  split.
  - intros (bs & E) a I. apply each_iff' in E. induction E as [|x y l bs H F IH]; [destruct I|]. destruct I as [->|I]; [eauto|exact (IH I)].
  - induction l as [|a l IH]; intro H; cbn [each]; [eauto|]. destruct (H a (or_introl eq_refl)) as (b & ->). cbn [bind].
    destruct (IH (fun x I => H x (or_intror I))) as (bs & ->). cbn. eauto.
Qed.
Lemma F2_l {A B} (R : A -> B -> Prop) l l' a : Forall2 R l l' -> In a l -> exists b, In b l' /\ R a b.
Proof. induction 1 as [|x y l l' H F IH]; intro I; [destruct I|]. destruct I as [->|I]; [exists y; split; [left; reflexivity|exact H]|]. destruct (IH I) as (b & J & K). exists b. split; [right; exact J|exact K]. Qed.
Lemma F2_r {A B} (R : A -> B -> Prop) l l' b : Forall2 R l l' -> In b l' -> exists a, In a l /\ R a b.
Proof. induction 1 as [|x y l l' H F IH]; intro I; [destruct I|]. destruct I as [->|I]; [exists x; split; [left; reflexivity|exact H]|]. destruct (IH I) as (a & J & K). exists a. split; [right; exact J|exact K]. Qed.
Lemma somes_in {A} (l : list (option A)) a : In a (somes l) <-> In (Some a) l.
Proof.
  induction l as [|[x|] l IH]; cbn [somes In]; [reflexivity| |].
  - rewrite IH. split; (intros [H|H]; [left; congruence|right; exact H]).
  - rewrite IH. split; [right; assumption|]. intros [H|H]; [discriminate|exact H].
Qed.

(** ** a shape with a single triple constraint *)
Section Single.
  Variable eval : nat -> nat -> bool.
  Variable ext : nat -> bool.
  Variable g : EngineModel.rdf.
  Variable T : nat -> nat -> bool.
  Lemma one_pass_iff te arcs : tmatch eval ext g T te arcs -> tmatch eval ext g T (AEach None [te] None None []) arcs.
  Proof. intro H. apply each_iff. cbn. exists arcs, []. rewrite app_nil_r. auto using Permutation_refl. Qed.
  Lemma shape_unfold te n : sat eval ext g T (AShape None None (Some te) []) n <->
    exists matched rest, neighbourhood g n (matched ++ rest) /\ tmatch eval ext g T te matched /\
      (forall k v, In (k, v) rest -> is_direct k = true ->
         (mentions te k -> (exists p, In p (@nil nat) /\ k = direct p) /\ ~ constrains eval ext g T te k v) /\ (~ mentions te k -> (@None bool) <> Some true)).
  Proof. reflexivity. Qed.
  Lemma mentions_one te k : mentions (AEach None [te] None None []) k <-> mentions te k.
  Proof. cbn [mentions]. tauto. Qed.
  Lemma constrains_one te k v : constrains eval ext g T (AEach None [te] None None []) k v <-> constrains eval ext g T te k v.
  Proof. change (constrains eval ext g T (AEach None [te] None None []) k v) with (constrains eval ext g T te k v \/ False). tauto. Qed.
  Lemma tc_perm te a b : is_tc te -> Permutation a b -> tmatch eval ext g T te a -> tmatch eval ext g T te b.
  Proof.
    intros (p & v & mn & mx & ->) P. cbn [CompSpec.tmatch]. rewrite (Permutation_length P). intros (H & K & M). split; [exact H|]. split; [exact K|].
    intros k w I. apply M. apply (Permutation_in _ (Permutation_sym P) I).
  Qed.
  Lemma single_iff te n : is_tc te -> sat eval ext g T (AShape None None (Some te) []) n <-> tc_ok eval ext g T n te.
  Proof.
    intro TC. transitivity (sat eval ext g T (shape_of [te]) n).
    2: { rewrite shape_iff; [split; [intro H; apply H; left; reflexivity|intros H x [<-|[]]; exact H]|intros x [<-|[]]; exact TC|]. cbn. constructor; [intros []|constructor]. }
    unfold shape_of. rewrite !shape_unfold. split; intros (matched & rest & NB & M & R); exists matched, rest; (split; [exact NB|]).
    - split; [apply one_pass_iff, M|]. intros k v I D. specialize (R k v I D). rewrite mentions_one, constrains_one. exact R.
    - split.
      + apply each_iff in M. cbn [allmatch] in M. destruct M as (a & b & P & Ha & ->). rewrite app_nil_r in P. apply (tc_perm te a); [exact TC|apply Permutation_sym, P|exact Ha].
      + intros k v I D. specialize (R k v I D). rewrite mentions_one, constrains_one in R. exact R.
  Qed.
End Single.

Section Convert.
  Variable add : bool.
  Variable label : term -> nat.
  Variable number : N -> nat.
  Variable datatype_kind : N -> nat.
  Variable values_kind : list N -> nat.
  Variable rdf_type : N.
  Variable sch : schema.
  Variable targets : nat -> list ShcModel.target.
  Notation component2se := (component2se number datatype_kind values_kind rdf_type).
  Notation components2se := (components2se number datatype_kind values_kind rdf_type).
  Notation property_of := (property_of number datatype_kind values_kind rdf_type sch).
  Notation target_constraint := (target_constraint number values_kind rdf_type).
  Notation node_shape2se := (node_shape2se add number datatype_kind values_kind rdf_type sch targets).
  Notation convert_shape := (convert_shape add label number datatype_kind values_kind rdf_type sch targets).
  Notation convert := (convert add label number datatype_kind values_kind rdf_type sch targets).
  Notation tc := (triple_constraint number).

  (** ** when the conversion succeeds *)
  Lemma component_ok c : (exists e, component2se c = Ok e) <-> plain_component c.
  Proof.
    destruct c; cbn; try (split; [intros (e & E); discriminate E|intros []]); [split; eauto|].
    destruct (ShcModel.decode k) as [[i|i|i]|d|x|x]; cbn; split; (intros (e & E); discriminate E) || intros []; eauto.
  Qed.
  Lemma components_ok cs : (exists e, components2se cs = Ok e) <-> forall c, In c cs -> plain_component c.
  Proof.
    unfold ScvModel.components2se. transitivity (exists es, each component2se cs = Ok es).
    - split; [intros (e & E); destruct (each component2se cs) as [es| | |]; cbn [bind] in E; try discriminate; eauto|]. intros (es & ->). cbn [bind]. destruct es; eauto.
    - rewrite each_ok. split; intros H c I; apply component_ok, H, I.
  Qed.
  Lemma property_ok j : (exists te, property_of j = Ok te) <->
    exists ps p, get_shape sch j = Some ps /\ s_path ps = Some (PPred p) /\ forall c, In c (s_comps ps) -> plain_component c.
  Proof.
    unfold ScvModel.property_of, property2tc. split.
    - intros (te & E). destruct (get_shape sch j) as [ps|]; [|discriminate]. destruct (s_path ps) as [p|] eqn:P; [|discriminate].
      destruct p; cbn [path2predicate bind] in E; try discriminate. exists ps, p. split; [reflexivity|]. split; [exact P|]. apply components_ok.
      destruct (components2se (s_comps ps)) as [e| | |]; cbn [bind] in E; try discriminate. eauto.
    - intros (ps & p & -> & -> & H). cbn [path2predicate bind]. apply components_ok in H. destruct H as (e & ->). cbn. eauto.
  Qed.
  Lemma property_inv j te : property_of j = Ok te ->
    exists ps p se, get_shape sch j = Some ps /\ s_path ps = Some (PPred p) /\ components2se (s_comps ps) = Ok se /\ te = tc p se.
  Proof.
    unfold ScvModel.property_of, property2tc. destruct (get_shape sch j) as [ps|]; [|discriminate]. destruct (s_path ps) as [p|] eqn:P; [|discriminate].
    destruct p; cbn [path2predicate bind]; try discriminate. destruct (components2se (s_comps ps)) as [se| | |] eqn:C; cbn [bind]; try discriminate. intros [= <-].
    exists ps, p, se. repeat split; assumption.
  Qed.
  Lemma target_ok t : (exists v, target2value t = Ok v) <-> plain_target t.
  Proof.
    destruct t as [t|[i|i|i]|p|p|t|t]; cbn; try (split; eauto); intros H; try (destruct H as (? & [=])); try destruct H; eauto; try discriminate.
  Qed.
  Lemma targets_ok ts : (exists te, target_constraint ts = Ok te) <-> forall t, In t ts -> plain_target t.
  Proof.
    unfold ScvModel.target_constraint. transitivity (exists vs, each target2value ts = Ok vs).
    - split; [intros (e & E); destruct (each target2value ts) as [vs| | |]; cbn [bind] in E; try discriminate; eauto|]. intros (vs & ->). cbn. eauto.
    - rewrite each_ok. split; intros H t I; apply target_ok, H, I.
  Qed.
  Lemma target_inv ts te : target_constraint ts = Ok te -> exists cs, te = tc rdf_type (Some (one_of values_kind cs)) /\ forall c, In c cs <-> In (ShcModel.TgClass (TIri c)) ts.
  Proof.
    unfold ScvModel.target_constraint. destruct (each target2value ts) as [vs| | |] eqn:E; cbn [bind]; try discriminate. intros [= <-]. exists (somes vs). split; [reflexivity|].
    intro c. rewrite somes_in. apply each_iff' in E. split; intro I.
    - destruct (F2_r _ _ _ _ E I) as (t & It & Et). destruct t as [t|[i|i|i]|p|p|t|t]; cbn in Et; try discriminate. injection Et as ->. exact It.
    - destruct (F2_l _ _ _ _ E I) as (v & Iv & Et). cbn in Et. injection Et as <-. exact Iv.
  Qed.
  Lemma shape_ok i s : (exists d, convert_shape i s = Ok d) <->
    ~ literal (s_id s) /\
    (forall j, In j (s_props s) -> exists ps p, get_shape sch j = Some ps /\ s_path ps = Some (PPred p) /\ forall c, In c (s_comps ps) -> plain_component c) /\
    (add = true -> forall t, In t (targets i) -> plain_target t).
  Proof.
    unfold ScvModel.convert_shape, ScvModel.node_shape2se.
    assert (P : (exists tes, each property_of (s_props s) = Ok tes) <-> forall j, In j (s_props s) ->
       exists ps p, get_shape sch j = Some ps /\ s_path ps = Some (PPred p) /\ forall c, In c (s_comps ps) -> plain_component c).
    { rewrite each_ok. split; intros H j I; apply property_ok, H, I. }
    rewrite <- P. assert (Lb : ~ literal (s_id s) <-> exists l, rdfnode2label label (s_id s) = Ok l).
    { destruct (s_id s); cbn; [split; [eauto|intros _ []]|split; [eauto|intros _ []]|split; [intro H; exfalso; apply H; exact Logic.I|intros (l & [=])]]. }
    rewrite Lb. clear P Lb. split.
    - intros (d & E). destruct (rdfnode2label label (s_id s)) as [l| | |]; cbn [bind] in E; try discriminate.
      destruct (each property_of (s_props s)) as [tes| | |]; cbn [bind] in E; try discriminate. split; [eauto|]. split; [eauto|]. intro A. rewrite A in E.
      apply targets_ok. destruct (target_constraint (targets i)) as [t| | |]; cbn [bind] in E; try discriminate. eauto.
    - intros ((l & ->) & (tes & ->) & H). cbn [bind]. destruct add; [|cbn; eauto]. destruct (proj2 (targets_ok (targets i)) (H eq_refl)) as (t & ->). cbn. eauto.
  Qed.
  Theorem convert_ok : (exists D, convert = Ok D) <-> convertible add sch targets.
  Proof.
    unfold ScvModel.convert. transitivity (exists ds, each (fun e => convert_shape (fst e) (snd e)) (filter is_node_shape sch) = Ok ds).
    - split; [intros (D & E); match type of E with bind ?m _ = _ => destruct m as [ds| | |]; cbn [bind] in E; try discriminate; eauto end|]. intros (ds & ->). cbn. eauto.
    - rewrite each_ok. unfold convertible. split.
      + intros H i s I N. apply shape_ok. apply (H (i, s)). apply filter_In. split; [exact I|]. unfold is_node_shape. cbn. rewrite N. reflexivity.
      + intros H [i s] I. apply filter_In in I. destruct I as [I N]. apply shape_ok. apply H; [exact I|]. unfold is_node_shape in N. cbn [snd fst] in *. destruct (s_path s); [discriminate|reflexivity].
  Qed.

  (** ** the parts of a converted shape *)
  Lemma shape_inv i s d : convert_shape i s = Ok d ->
    exists tes e, d = mkDecl (label (s_id s)) e false /\ Forall2 (fun j te => property_of j = Ok te) (s_props s) tes /\
      (add = false /\ e = shape_of tes \/
       add = true /\ exists t, target_constraint (targets i) = Ok t /\ e = AShape None None (Some (match tes with [] => t | _ => AEach None (tes ++ [t]) None None [] end)) []).
  Proof.
    unfold ScvModel.convert_shape, ScvModel.node_shape2se. intro E.
    assert (Lb : rdfnode2label label (s_id s) = Ok (label (s_id s)) \/ rdfnode2label label (s_id s) = Err) by (destruct (s_id s); cbn; auto).
    destruct Lb as [Lb|Lb]; rewrite Lb in E; cbn [bind] in E; [|discriminate].
    destruct (each property_of (s_props s)) as [tes| | |] eqn:P; cbn [bind] in E; try discriminate. apply each_iff' in P.
    exists tes. destruct add eqn:A.
    - destruct (target_constraint (targets i)) as [t| | |] eqn:Tt; cbn [bind] in E; try discriminate. injection E as <-. eexists. split; [reflexivity|]. split; [exact P|]. right. split; [reflexivity|].
      exists t. split; [reflexivity|]. destruct (target_inv _ _ Tt) as (cs & -> & _). destruct tes; reflexivity.
    - cbn [bind] in E. injection E as <-. eexists. split; [reflexivity|]. split; [exact P|]. left. split; reflexivity.
  Qed.
  Lemma is_tc_tc p se : is_tc (tc p se).
  Proof. repeat eexists. Qed.

  (** ** meaning *)
  Variable node : term -> nat.
  Variable eval : nat -> nat -> bool.
  Variable ext : nat -> bool.
  Variable W : world.
  Hypothesis SW : same_world node label number datatype_kind values_kind eval W.
  Notation g := (w_graph W).
  Notation G := (translated node number g).
  Variable T : nat -> nat -> bool.
  Notation sat := (sat eval ext G T).
  Notation one_value := (one_value W).
  Notation first_holds := (first_holds rdf_type W).

  Lemma in_translated n p x : In (node n, number p, x) G <-> exists v, x = node v /\ In (n, p, v) g.
  Proof.
    unfold translated. rewrite in_map_iff. split.
    - intros ([[a b] c] & E & I). injection E as E1 E2 <-. apply (sw_node _ _ _ _ _ _ _ SW) in E1. apply (sw_number _ _ _ _ _ _ _ SW) in E2. cbn in *. subst. eauto.
    - intros (v & -> & I). exists (n, p, v). split; [reflexivity|exact I].
  Qed.
  Lemma tc_value n p se (P : term -> Prop) : (forall v, value_sat eval ext G T se (node v) <-> P v) ->
    tc_ok eval ext G T (node n) (tc p se) <-> one_value n p P.
  Proof.
    intro H. unfold triple_constraint, ScvSpec.one_value. cbn [tc_ok]. split.
    - intros (vs & N & I & L & M & V). cbn in L, M. destruct vs as [|x [|y vs]]; cbn in L, M; try lia.
      destruct (proj1 (in_translated n p x) (proj1 (I x) (or_introl eq_refl))) as (v & -> & J). exists v. split; [|apply H, V; left; reflexivity].
      intro w. split; [|intros ->; exact J]. intro K. assert (X : In (node w) [node v]) by (apply I; apply in_translated; eauto).
      destruct X as [X|[]]. apply (sw_node _ _ _ _ _ _ _ SW) in X. auto.
    - intros (v & E & Pv). exists [node v]. split; [constructor; [intros []|constructor]|]. split.
      + intro x. rewrite in_translated. split; [intros [<-|[]]; exists v; split; [reflexivity|apply E; reflexivity]|].
        intros (w & -> & J). apply E in J. subst w. left; reflexivity.
      + cbn. split; [lia|]. split; [lia|]. intros x [<-|[]]. apply H, Pv.
  Qed.
  Lemma node_sat k x : sat (ANode [POne k]) x <-> eval k x = true.
  Proof. cbn. split; [intro H; apply (H (POne k)); [left; reflexivity|left; reflexivity]|]. intros H p j [<-|[]] [<-|[]]. exact H. Qed.
  Lemma one_of_sat cs v : sat (one_of values_kind cs) (node v) <-> exists c, In c cs /\ v = TIri c.
  Proof. unfold one_of. rewrite node_sat. apply (sw_values _ _ _ _ _ _ _ SW). Qed.
  Lemma one_value_ext n p P Q : (forall v, P v <-> Q v) -> one_value n p P <-> one_value n p Q.
  Proof. intro H. unfold ScvSpec.one_value. split; intros (v & E & K); exists v; (split; [exact E|apply H, K]). Qed.
  Lemma class_sat c v : sat (AShape None None (Some (tc rdf_type (Some (one_of values_kind [c])))) []) (node v) <-> one_value v rdf_type (fun w => w = TIri c).
  Proof.
    rewrite single_iff by apply is_tc_tc. apply tc_value. intro w. cbn [value_sat]. rewrite one_of_sat. split; [intros (c' & [->|[]] & E); exact E|]. intro E. exists c. split; [left; reflexivity|exact E].
  Qed.
  Lemma empty_sat x : sat (AShape None None None []) x.
  Proof. apply (shape_iff eval ext G T [] x); [intros ? []|constructor|intros ? []]. Qed.
  Lemma component_sat c e v : component2se c = Ok e -> sat e (node v) <-> first_holds [c] v.
  Proof.
    destruct c; cbn [ScvModel.component2se ScvSpec.first_holds]; try discriminate.
    - intros [= <-]. split; [trivial|]. intros _. apply empty_sat.
    - pose proof (code_decode k) as CD. destruct (ShcModel.decode k) as [[i|i|i]|d|x|x] eqn:D; cbn [create_class_constraint]; try discriminate; intros [= <-].
      + apply class_sat.
      + rewrite node_sat, (sw_datatype _ _ _ _ _ _ _ SW). rewrite CD. reflexivity.
  Qed.
  Lemma components_sat cs se v : components2se cs = Ok se -> value_sat eval ext G T se (node v) <-> first_holds cs v.
  Proof.
    unfold ScvModel.components2se. destruct (each component2se cs) as [es| | |] eqn:E; cbn [bind]; try discriminate. apply each_iff' in E.
    destruct E as [|c e cs es H F]; intros [= <-]; [split; trivial|]. cbn [value_sat]. rewrite (component_sat c e v H). destruct c; reflexivity.
  Qed.
  Lemma property_sat j te n : property_of j = Ok te ->
    tc_ok eval ext G T (node n) te <-> forall ps p, get_shape sch j = Some ps -> s_path ps = Some (PPred p) -> one_value n p (first_holds (s_comps ps)).
  Proof.
    intro H. destruct (property_inv j te H) as (ps & p & se & E & P & C & ->). rewrite (tc_value n p se (first_holds (s_comps ps))) by (intro v; apply components_sat, C). split.
    - intros K ps' p' E' P'. rewrite E in E'. injection E' as <-. rewrite P in P'. injection P' as <-. exact K.
    - intro K. exact (K ps p E P).
  Qed.
  Lemma target_sat ts te n : target_constraint ts = Ok te -> (forall t, In t ts -> plain_target t) ->
    tc_ok eval ext G T (node n) te <-> one_value n rdf_type (fun c => In (ShcModel.TgClass c) ts).
  Proof.
    intros H PL. destruct (target_inv ts te H) as (cs & -> & I). apply tc_value. intro v. cbn [value_sat]. rewrite one_of_sat. split.
    - intros (c & J & ->). apply I, J.
    - intro J. destruct (PL _ J) as (c & ->). exists c. split; [apply I, J|reflexivity].
  Qed.
  Lemma preds_of props tes : Forall2 (fun j te => property_of j = Ok te) props tes ->
    map pred_of tes = map (fun p => match p with Some (PPred p) => direct (number p) | _ => 0 end) (map (fun j => match get_shape sch j with Some ps => s_path ps | None => None end) props)
    /\ (forall o, In o (map (fun j => match get_shape sch j with Some ps => s_path ps | None => None end) props) -> exists p, o = Some (PPred p))
    /\ forall te, In te tes -> is_tc te.
  Proof.
    induction 1 as [|j te props tes H F (IH1 & IH2 & IH3)]; [repeat split; try reflexivity; intros ? []|].
    destruct (property_inv j te H) as (ps & p & se & E & P & C & ->). cbn [map]. rewrite IH1, E, P. repeat split.
    - intros o [<-|I]; [eauto|exact (IH2 o I)].
    - intros te [<-|I]; [apply is_tc_tc|exact (IH3 te I)].
  Qed.
  Lemma nodup_preds (l : list (option path)) : (forall o, In o l -> exists p, o = Some (PPred p)) -> NoDup l ->
    NoDup (map (fun p => match p with Some (PPred p) => direct (number p) | _ => 0 end) l).
  Proof.
    intros H N. induction N as [|o l NI N IH]; cbn [map]; [constructor|]. constructor; [|apply IH; intros x I; apply H; right; exact I].
    intro I. apply in_map_iff in I. destruct I as (o' & E & I). destruct (H o (or_introl eq_refl)) as (p & ->). destruct (H o' (or_intror I)) as (p' & ->).
    apply direct_inj, (sw_number _ _ _ _ _ _ _ SW) in E. subst p'. contradiction.
  Qed.
  Lemma shape_sat i s d n : convert_shape i s = Ok d -> NoDup (properties add rdf_type sch s) ->
    sat (d_expr d) (node n) <-> asks add rdf_type W sch targets i s n.
  Proof.
    intros H N. pose proof (proj1 (shape_ok i s) (ex_intro _ d H)) as (_ & _ & PT). destruct (shape_inv i s d H) as (tes & e & -> & F & X). cbn [d_expr].
    destruct (preds_of _ _ F) as (EP & OP & TC). unfold properties in N.
    assert (PR : (forall te, In te tes -> tc_ok eval ext G T (node n) te) <->
       (forall j ps p, In j (s_props s) -> get_shape sch j = Some ps -> s_path ps = Some (PPred p) -> one_value n p (first_holds (s_comps ps)))).
    { split.
      - intros K j ps p J. destruct (F2_l _ _ _ _ F J) as (te & I & Pj). apply (property_sat j te n Pj), K, I.
      - intros K te I. destruct (F2_r _ _ _ _ F I) as (j & J & Pj). apply (property_sat j te n Pj). intros ps p. apply K, J. }
    unfold asks. destruct X as [(A & ->)|(A & t & Tt & ->)].
    - rewrite A in N. rewrite app_nil_r in N. rewrite shape_iff; [|exact TC|rewrite EP; apply nodup_preds; assumption]. rewrite PR. split; [intro K; split; [exact K|congruence]|intros [K _]; exact K].
    - rewrite A in N. destruct (target_inv _ _ Tt) as (cs & Et & _).
      assert (TCt : is_tc t) by (rewrite Et; apply is_tc_tc).
      transitivity (sat (shape_of (tes ++ [t])) (node n)).
      { destruct tes as [|te0 tes]; [|reflexivity]. rewrite single_iff by exact TCt. cbn [app]. rewrite shape_iff; [|intros x [<-|[]]; exact TCt|constructor; [intros []|constructor]].
        split; [intros K x [<-|[]]; exact K|intro K; apply K; left; reflexivity]. }
      rewrite shape_iff.
      + rewrite <- PR. rewrite <- (target_sat (targets i) t n Tt (PT A)). split.
        * intro K. split; [intros te I; apply K, in_or_app; left; exact I|]. intros _. apply K, in_or_app. right; left; reflexivity.
        * intros [K1 K2] te I. apply in_app_iff in I. destruct I as [I|[<-|[]]]; [exact (K1 te I)|exact (K2 A)].
      + intros te I. apply in_app_iff in I. destruct I as [I|[<-|[]]]; [exact (TC te I)|exact TCt].
      + rewrite map_app, EP, Et. change (map pred_of [tc rdf_type (Some (one_of values_kind cs))]) with (map (fun p => match p with Some (PPred p) => direct (number p) | _ => 0 end) [Some (PPred rdf_type)]).
        rewrite <- map_app. apply nodup_preds; [|exact N]. intros o I. apply in_app_iff in I. destruct I as [I|[<-|[]]]; [exact (OP o I)|eauto].
  Qed.
End Convert.

Section Final.
  Variable add : bool.
  Variable label : term -> nat.
  Variable number : N -> nat.
  Variable datatype_kind : N -> nat.
  Variable values_kind : list N -> nat.
  Variable rdf_type : N.
  Variable sch : schema.
  Variable targets : nat -> list ShcModel.target.
  Notation component2se := (component2se number datatype_kind values_kind rdf_type).
  Notation components2se := (components2se number datatype_kind values_kind rdf_type).
  Notation property_of := (property_of number datatype_kind values_kind rdf_type sch).
  Notation convert_shape := (convert_shape add label number datatype_kind values_kind rdf_type sch targets).
  Notation convert := (convert add label number datatype_kind values_kind rdf_type sch targets).
  Variable node : term -> nat.
  Variable eval : nat -> nat -> bool.
  Variable ext : nat -> bool.
  Variable W : world.
  Hypothesis SW : same_world node label number datatype_kind values_kind eval W.
  Notation g := (w_graph W).
  Notation G := (translated node number g).

  Lemma components_plain cs se : components2se cs = Ok se -> match se with Some e => no_inclusion e | None => True end.
  Proof.
    unfold ScvModel.components2se. destruct (each component2se cs) as [es| | |] eqn:E; cbn [bind]; try discriminate. apply each_iff' in E.
    destruct E as [|c e cs es H F]; intros [= <-]; [trivial|]. destruct c; cbn in H; try discriminate; [injection H as <-; exact Logic.I|].
    destruct (ShcModel.decode k) as [[i|i|i]|d|x|x]; cbn in H; try discriminate; injection H as <-; exact Logic.I.
  Qed.
  Lemma shape_plain i s d : convert_shape i s = Ok d -> no_inclusion (d_expr d).
  Proof.
    intro H. destruct (shape_inv _ _ _ _ _ _ _ _ _ _ _ H) as (tes & e & -> & F & X). cbn [d_expr].
    assert (NI : forall te, In te tes -> no_inclusion_te te).
    { intros te I. destruct (F2_r _ _ _ _ F I) as (j & _ & Pj). destruct (property_inv _ _ _ _ _ _ _ Pj) as (ps & p & se & _ & _ & C & ->). apply components_plain in C. destruct se; exact C. }
    assert (AL : forall l, (forall te, In te l -> no_inclusion_te te) -> no_inclusion_te (AEach None l None None [])).
    { induction l as [|te l IH]; intro K; [exact Logic.I|]. split; [apply K; left; reflexivity|]. apply IH. intros x I. apply K. right; exact I. }
    destruct X as [(_ & ->)|(_ & t & Tt & ->)].
    - unfold shape_of. destruct tes as [|te tes]; [exact Logic.I|]. exact (AL (te :: tes) NI).
    - destruct (target_inv _ _ _ _ _ Tt) as (cs & -> & _). destruct tes as [|te tes]; [exact Logic.I|]. apply (AL ((te :: tes) ++ [_])). intros x I. apply in_app_iff in I. destruct I as [I|[<-|[]]]; [exact (NI x I)|exact Logic.I].
  Qed.
  Lemma declared_iff D l e : convert = Ok D -> declared [] D l e <-> exists i s d, In (i, s) sch /\ s_path s = None /\ convert_shape i s = Ok d /\ d_id d = l /\ d_expr d = e.
  Proof.
    unfold ScvModel.convert. destruct (each _ (filter is_node_shape sch)) as [ds| | |] eqn:E; cbn [bind]; try discriminate. intros [= <-]. apply each_iff' in E. unfold declared. cbn [app a_shapes a_start]. split.
    - intros [(a & d & [<-|[]] & I & L & X)|(_ & X)]; [|discriminate]. cbn [a_shapes] in I. destruct (F2_r _ _ _ _ E I) as ([i s] & J & K). apply filter_In in J. destruct J as [J NS].
      exists i, s, d. split; [exact J|]. unfold is_node_shape in NS. cbn [snd fst] in *. split; [destruct (s_path s); [discriminate|reflexivity]|]. auto.
    - intros (i & s & d & J & NS & K & L & X). left. assert (In (i, s) (filter is_node_shape sch)) as J' by (apply filter_In; split; [exact J|unfold is_node_shape; cbn [snd]; rewrite NS; reflexivity]).
      destruct (F2_l _ _ _ _ E J') as (d' & I & K'). cbn [fst snd] in K'. rewrite K in K'. injection K' as <-. exists (mkAschema None ds), d. cbn [a_shapes]. split; [left; reflexivity|]. auto.
  Qed.
  Lemma plain_schema D l e : convert = Ok D -> declared [] D l e -> no_inclusion e.
  Proof. intros C H. apply (declared_iff D l e C) in H. destruct H as (i & s & d & _ & _ & K & _ & <-). exact (shape_plain i s d K). Qed.
  Lemma id_of i s d : convert_shape i s = Ok d -> d_id d = label (s_id s).
  Proof. intro H. destruct (shape_inv _ _ _ _ _ _ _ _ _ _ _ H) as (tes & e & -> & _). reflexivity. Qed.

  Theorem meaning D i s n : convert = Ok D -> separate add rdf_type sch -> well_named sch -> In (i, s) sch -> s_path s = None ->
    has_shape eval ext G [] D (node n) (label (s_id s)) <-> asks add rdf_type W sch targets i s n.
  Proof.
    intros C SP (ND & WN) I NS.
    assert (DD : forall l e, defines [] D l e <-> declared [] D l e) by (intros l e; apply defines_declared; intros l' e' H; exact (plain_schema D l' e' C H)).
    split.
    - intros (T & Tn & Ts). destruct (Ts _ _ Tn) as (e & De & S). apply DD, (declared_iff D _ _ C) in De. destruct De as (i' & s' & d & I' & NS' & K & L & <-).
      rewrite (id_of _ _ _ K) in L. apply (sw_label _ _ _ _ _ _ _ SW) in L. pose proof (WN i' i s' s I' I L) as ->.
      assert (s' = s) as -> by (clear -ND I I'; induction sch as [|[a b] r IH]; [destruct I|]; cbn in ND; inversion ND as [|? ? NI N']; subst; destruct I as [I|I], I' as [I'|I'];
        [congruence|exfalso; apply NI; injection I as <- <-; change a with (fst (a, s')); apply in_map, I'|exfalso; apply NI; injection I' as <- <-; change a with (fst (a, s)); apply in_map, I|exact (IH N' I I')]).
      exact (proj1 (shape_sat _ _ _ _ _ _ _ _ _ _ ext _ SW T i s d n K (SP i s I NS)) S).
    - intro A. pose proof (proj1 (convert_ok _ _ _ _ _ _ _ _) (ex_intro _ D C) i s I NS) as SO. apply (shape_ok add label number datatype_kind values_kind rdf_type) in SO. destruct SO as (d & K).
      exists (fun m j => Nat.eqb m (node n) && Nat.eqb j (label (s_id s))). split; [rewrite !Nat.eqb_refl; reflexivity|].
      intros m j H. apply andb_true_iff in H. destruct H as [H1 H2]. apply Nat.eqb_eq in H1, H2. subst m j. exists (d_expr d). split.
      + apply DD, (declared_iff D _ _ C). exists i, s, d. repeat split; try assumption. exact (id_of _ _ _ K).
      + apply (shape_sat _ _ _ _ _ _ _ _ _ _ ext _ SW _ i s d n K (SP i s I NS)), A.
  Qed.
End Final.

(** ** what SHACL says *)
Section Shacl.
  Variable rdf_type sub_class_of : N.
  Variable W : world.
  Variable sch : schema.
  Variable C : nat -> term -> Prop.
  Hypothesis CF : conformance W sch C.
  Notation g := (w_graph W).

  Lemma get_in i s : In (i, s) sch -> NoDup (map fst sch) -> get_shape sch i = Some s.
  Proof.
    clear CF. induction sch as [|[a b] r IH]; intros I N; [destruct I|]. cbn in *. inversion N as [|? ? NI N']; subst. destruct I as [I|I].
    - injection I as -> ->. rewrite Nat.eqb_refl. reflexivity.
    - destruct (Nat.eqb_spec i a) as [->|_]; [exfalso; apply NI; change a with (fst (a, s)); apply in_map, I|exact (IH I N')].
  Qed.
  (** a property shape with one test at most *)
  Lemma property_conforms j ps p n : get_shape sch j = Some ps -> s_path ps = Some (PPred p) -> s_props ps = [] -> s_deactivated ps = false ->
    (s_comps ps = [] \/ exists k, s_comps ps = [CTest k]) ->
    C j n <-> forall k v, In (CTest k) (s_comps ps) -> In (n, p, v) g -> w_test W k v = false.
  Proof.
    intros G P PR DA CS. rewrite (CF j ps n G), DA, PR. split.
    - intros [X|[X _]]; [discriminate|]. intros k v I V. apply (X _ I v). unfold value_node. rewrite P. exact V.
    - intro H. right. split; [|intros ? ? []]. intros c I. destruct CS as [CS|(k & CS)]; rewrite CS in I; [destruct I|]. destruct I as [<-|[]]. cbn. intros v V.
      unfold value_node in V. rewrite P in V. apply (H k v); [rewrite CS; left; reflexivity|exact V].
  Qed.

  Lemma sound add targets i s n : convertible add sch targets -> NoDup (map fst sch) -> In (i, s) sch -> s_path s = None -> bare sch s ->
    tests_classes rdf_type W sub_class_of -> asks add rdf_type W sch targets i s n -> C i n.
  Proof.
    intros CV ND I NS (BC & BP) TC (A & _). apply (CF i s n (get_in i s I ND)). right. rewrite BC. split; [intros ? []|].
    intros j v J V. unfold value_node in V. rewrite NS in V. subst v. destruct (CV i s I NS) as (_ & K & _). destruct (K j J) as (ps & p & G & P & _).
    destruct (BP j ps J G) as (PR & CS). destruct (s_deactivated ps) eqn:DA; [apply (CF j ps n G); left; exact DA|].
    apply (property_conforms j ps p n G P PR DA CS). intros k v Ik Iv. destruct (A j ps p J G P) as (v0 & U & F). apply U in Iv. subst v0.
    destruct CS as [CS|(k' & CS)]; rewrite CS in Ik; [destruct Ik|]. destruct Ik as [X|[]]. injection X as <-. rewrite CS in F. cbn [first_holds] in F.
    pose proof (code_decode k') as CD. destruct (ShcModel.decode k') as [c|d|x|x]; try exact F. rewrite <- CD. apply TC. destruct F as (w & Uw & ->). apply Uw. reflexivity.
  Qed.
  Lemma complete add targets i s n : NoDup (map fst sch) -> In (i, s) sch -> s_path s = None -> bare sch s -> active sch s ->
    tests_classes rdf_type W sub_class_of -> flat_types rdf_type W sub_class_of -> has_single_values W sch s n ->
    (add = true -> ScvSpec.one_value W n rdf_type (fun c => In (ShcModel.TgClass c) (targets i))) -> C i n -> asks add rdf_type W sch targets i s n.
  Proof.
    intros ND I NS (BC & BP) (DA & DP) TC (FT & FS) SV AD Ci. split; [|exact AD]. intros j ps p J G P.
    apply (CF i s n (get_in i s I ND)) in Ci. destruct Ci as [X|[_ X]]; [congruence|]. assert (Cj : C j n) by (apply X; [exact J|unfold value_node; rewrite NS; reflexivity]).
    destruct (BP j ps J G) as (PR & CS). pose proof (proj1 (property_conforms j ps p n G P PR (DP j ps J G) CS) Cj) as H. destruct (SV j ps p J G P) as (v & U & _). exists v. split; [exact U|].
    destruct CS as [CS|(k & CS)]; rewrite CS in *; cbn [first_holds]; [exact Logic.I|]. specialize (H k v (or_introl eq_refl) (proj2 (U v) eq_refl)).
    pose proof (code_decode k) as CD. destruct (ShcModel.decode k) as [c|d|x|x]; try exact H. rewrite <- CD in H. apply TC in H. destruct H as (c' & Ic & S). destruct S as [|? ? S]; [|exfalso; exact (FS _ _ S)].
    eexists. split; [|reflexivity]. intro w. split; [intro Iw; exact (FT _ _ _ Iw Ic)|intros ->; exact Ic].
  Qed.
End Shacl.
