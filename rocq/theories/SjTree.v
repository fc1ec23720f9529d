(* Reading what has been written: shape expressions, triple expressions and
   schemas. *)

From Coq Require Import List String Ascii NArith ZArith Bool Lia Arith.
From Verif Require Import SjModel SjSpec SjText SjLemmas SjNode.
Import ListNotations.
Open Scope string_scope.

Local Arguments mem : simpl never.

Section Tree.
Context {L : lib}.

(* ------------------------------------------------------------------ *)
(* Induction                                                            *)

Section Ind.
Variable P : sexpr -> Prop.
Variable Q : texpr -> Prop.
Hypothesis Hor : forall l, Forall P l -> P (SOr l).
Hypothesis Hand : forall l, Forall P l -> P (SAnd l).
Hypothesis Hnot : forall e, P e -> P (SNot e).
Hypothesis Hnode : forall n, P (SNode n).
Hypothesis Hshape : forall closed extra e acts anns extends,
  (forall t, e = Some t -> Q t) -> P (SShape closed extra e acts anns extends).
Hypothesis Hext : P SExternal.
Hypothesis Href : forall l, P (SRef l).
Hypothesis Heach : forall id l mn mx acts anns, Forall Q l -> Q (TEach id l mn mx acts anns).
Hypothesis Hone : forall id l mn mx acts anns, Forall Q l -> Q (TOne id l mn mx acts anns).
Hypothesis Htriple : forall id neg inv pred ve mn mx acts anns,
  (forall e, ve = Some e -> P e) -> Q (TTriple id neg inv pred ve mn mx acts anns).
Hypothesis Htref : forall l, Q (TRef l).

Fixpoint sexpr_each (e : sexpr) : P e :=
  match e with
  | SOr l => Hor l ((fix go l : Forall P l :=
      match l with [] => Forall_nil P | e :: l => Forall_cons e (sexpr_each e) (go l) end) l)
  | SAnd l => Hand l ((fix go l : Forall P l :=
      match l with [] => Forall_nil P | e :: l => Forall_cons e (sexpr_each e) (go l) end) l)
  | SNot e => Hnot e (sexpr_each e)
  | SNode n => Hnode n
  | SShape closed extra e acts anns extends =>
      Hshape closed extra e acts anns extends
        (match e return forall t, e = Some t -> Q t with
         | Some t => fun t' H => match H in _ = o return match o with Some t' => Q t' | None => True end
                                 with eq_refl => texpr_each t end
         | None => fun t' H => match H in _ = o return match o with Some t' => Q t' | None => True end
                               with eq_refl => Logic.I end
         end)
  | SExternal => Hext
  | SRef l => Href l
  end
with texpr_each (e : texpr) : Q e :=
  match e with
  | TEach id l mn mx acts anns => Heach id l mn mx acts anns ((fix go l : Forall Q l :=
      match l with [] => Forall_nil Q | e :: l => Forall_cons e (texpr_each e) (go l) end) l)
  | TOne id l mn mx acts anns => Hone id l mn mx acts anns ((fix go l : Forall Q l :=
      match l with [] => Forall_nil Q | e :: l => Forall_cons e (texpr_each e) (go l) end) l)
  | TTriple id neg inv pred ve mn mx acts anns =>
      Htriple id neg inv pred ve mn mx acts anns
        (match ve return forall t, ve = Some t -> P t with
         | Some t => fun t' H => match H in _ = o return match o with Some t' => P t' | None => True end
                                 with eq_refl => sexpr_each t end
         | None => fun t' H => match H in _ = o return match o with Some t' => P t' | None => True end
                               with eq_refl => Logic.I end
         end)
  | TRef l => Htref l
  end.
End Ind.

(* ------------------------------------------------------------------ *)
(* Members                                                              *)

Notation same := (fun j : json => j).

Lemma mem_cons {X : Type} k k' (x : X) ms : mem k ((k', x) :: ms) = (String.eqb k k' || mem k ms).
Proof. reflexivity. Qed.

Lemma field_over {X A : Type} k k' (rd : X -> res A) x ms :
  String.eqb k k' = false -> field k rd ((k', x) :: ms) = field k rd ms.
Proof. intros E. cbn. now rewrite E. Qed.

Lemma field_here {X A : Type} k (rd : X -> res A) x ms :
  mem k ms = false -> field k rd ((k, x) :: ms) = rmap Some (rd x).
Proof. intros E. cbn. rewrite String.eqb_refl. fold (mem k ms). now rewrite E. Qed.

Lemma ofield_skip {X A : Type} k (raw : X -> json) (rd : X -> res A) a ms :
  mem k a = false -> ofield k raw rd (a ++ ms) = ofield k raw rd ms.
Proof. intros H. unfold ofield. now rewrite field_skip. Qed.

Lemma ofield_cut {X A : Type} k (raw : X -> json) (rd : X -> res A) a ms :
  mem k ms = false -> ofield k raw rd (a ++ ms) = ofield k raw rd a.
Proof. intros H. unfold ofield. now rewrite field_cut. Qed.

Lemma ofield_over {X A : Type} k k' (raw : X -> json) (rd : X -> res A) x ms :
  String.eqb k k' = false -> ofield k raw rd ((k', x) :: ms) = ofield k raw rd ms.
Proof. intros E. unfold ofield. now rewrite field_over. Qed.

Lemma ofield_memb {A B : Type} k (rd : json -> res B) (w : A -> json) o :
  (forall a, w a <> JNull) ->
  ofield k same rd (memb k w o) =
  match o with Some a => rmap Some (rd (w a)) | None => Ok None end.
Proof.
  intros Hw. unfold ofield. rewrite field_memb. destruct o as [a|]; [|reflexivity].
  specialize (Hw a). destruct (w a); [now destruct Hw|..]; destruct (rd _); reflexivity.
Qed.

Ltac absent :=
  repeat first [rewrite mem_app | rewrite mem_cons | rewrite mem_memb by reflexivity];
  try reflexivity.

Ltac oget k nn :=
  repeat first [rewrite (ofield_skip k) by (absent; fail) | rewrite (ofield_over k) by reflexivity];
  try rewrite (ofield_cut k) by (absent; fail);
  rewrite (ofield_memb k) by nn.

Ltac get k :=
  repeat first [rewrite (field_skip k) by (absent; fail) | rewrite (field_over k) by reflexivity];
  rewrite (field_here k) by (absent; fail).

Ltac mget k :=
  repeat first [rewrite (field_skip k) by (absent; fail) | rewrite (field_over k) by reflexivity];
  try rewrite (field_cut k) by (absent; fail);
  rewrite (field_memb k).

Ltac nn := intros; discriminate.

(* ------------------------------------------------------------------ *)
(* Semantic actions and annotations                                     *)

Lemma str_opt (o : option string) :
  match o with Some a => rmap Some (r_str (JStr a)) | None => Ok None end = Ok o.
Proof. destruct o; reflexivity. Qed.

Lemma bool_opt (o : option bool) :
  match o with Some a => rmap Some (r_bool (JBool a)) | None => Ok None end = Ok o.
Proof. destruct o; reflexivity. Qed.

Lemma act_iff a : r_act (w_act a) = Ok a <-> ok_act a.
Proof.
  destruct a as [name code]. unfold r_act, w_act, ok_act. cbn [a_name a_code].
  rewrite <- name_iff. get "name". rewrite (ofield_over "code") by reflexivity.
  rewrite ofield_memb by nn. rewrite str_opt. unfold needed. split.
  - intros H. apply bind_ok in H as (n & H1 & H). apply bind_ok in H as (c & H2 & H).
    apply bind_ok in H1 as (m & H1 & H3). apply map_ok in H1 as (i & Hi & <-).
    cbn in H3. injection H3 as ->. now injection H as -> _.
  - intros ->. reflexivity.
Qed.

Lemma ann_iff a : r_ann (w_ann a) = Ok a <-> ok_ann a.
Proof.
  destruct a as [p o]. unfold w_ann, ok_ann. cbn [an_pred an_obj].
  rewrite <- name_iff, <- obj_iff. cbn -[r_iri w_iri r_obj w_obj]. split.
  - intros H. apply bind_ok in H as (p' & H1 & H). apply bind_ok in H as (o' & H2 & H).
    apply map_ok in H1 as (q & Hq & <-). apply map_ok in H2 as (q' & Hq' & <-).
    cbn in H. injection H as -> ->. auto.
  - intros [H1 H2]. rewrite H1, H2. reflexivity.
Qed.

Lemma i32_iff z : r_i32 (JInt z) = Ok z <-> ok_int z.
Proof.
  unfold r_i32, ok_int. destruct (Z.leb_spec (- 2 ^ 31) z); destruct (Z.ltb_spec z (2 ^ 31));
    cbn [andb]; split; intros H'; try discriminate; try lia; reflexivity.
Qed.

Definition o_acts (o : option (list semact)) : res (option (list semact)) :=
  match o with Some a => rmap Some (r_list r_act (w_list w_act a)) | None => Ok None end.

Definition o_anns (o : option (list annot)) : res (option (list annot)) :=
  match o with Some a => rmap Some (r_list r_ann (w_list w_ann a)) | None => Ok None end.

Definition o_int (o : option Z) : res (option Z) :=
  match o with Some a => rmap Some (r_i32 (JInt a)) | None => Ok None end.

Definition o_tid (o : option tlabel) : res (option tlabel) :=
  match o with Some a => rmap Some (r_tlabel (w_tlabel a)) | None => Ok None end.

Lemma acts_iff o : o_acts o = Ok o <-> ok_list ok_act o.
Proof. apply opt_iff. intros l. apply list_iff. apply act_iff. Qed.

Lemma anns_iff o : o_anns o = Ok o <-> ok_list ok_ann o.
Proof. apply opt_iff. intros l. apply list_iff. apply ann_iff. Qed.

Lemma int_opt_iff o : o_int o = Ok o <-> ok_opt ok_int o.
Proof. apply (opt_iff r_i32 JInt). apply i32_iff. Qed.

Lemma tid_opt_iff o : o_tid o = Ok o <-> ok_opt ok_tid o.
Proof. apply opt_iff. apply tid_iff. Qed.

(* ------------------------------------------------------------------ *)
(* The reader of objects, without the results of the members            *)

Definition untagged (ms : list (string * json)) : list (string * json) :=
  filter (fun m => negb (String.eqb "type" (fst m))) ms.

Definition s_obj (ms : list (string * json)) : res sexpr :=
  t <- needed (field "type" r_str ms) ;
  let ms := untagged ms in
  if String.eqb t "ShapeOr" then rmap SOr (needed (field "shapeExprs" (r_list r_sexpr) ms))
  else if String.eqb t "ShapeAnd" then rmap SAnd (needed (field "shapeExprs" (r_list r_sexpr) ms))
  else if String.eqb t "ShapeNot" then rmap SNot (needed (field "shapeExpr" r_sexpr ms))
  else if String.eqb t "NodeConstraint" then rmap SNode (r_nodec ms)
  else if String.eqb t "Shape" then
    closed <- ofield "closed" same r_bool ms ;
    extra <- ofield "extra" same (r_list r_iri) ms ;
    e <- ofield "expression" same r_texpr ms ;
    acts <- ofield "semActs" same (r_list r_act) ms ;
    anns <- ofield "annotations" same (r_list r_ann) ms ;
    extends <- ofield "extends" same (r_list r_label) ms ;
    Ok (SShape closed extra e acts anns extends)
  else if String.eqb t "ShapeExternal" then Ok SExternal
  else Err.

Definition t_group (ms : list (string * json))
  (make : option tlabel -> list texpr -> option Z -> option Z ->
          option (list semact) -> option (list annot) -> texpr) : res texpr :=
  id <- ofield "id" same r_tlabel ms ;
  l <- needed (field "expressions" (r_list r_texpr) ms) ;
  mn <- ofield "min" same r_i32 ms ;
  mx <- ofield "max" same r_i32 ms ;
  acts <- ofield "semActs" same (r_list r_act) ms ;
  anns <- ofield "annotations" same (r_list r_ann) ms ;
  Ok (make id l mn mx acts anns).

Definition t_obj (ms : list (string * json)) : res texpr :=
  t <- needed (field "type" r_str ms) ;
  let ms := untagged ms in
  if String.eqb t "EachOf" then t_group ms TEach
  else if String.eqb t "OneOf" then t_group ms TOne
  else if String.eqb t "TripleConstraint" then
    id <- ofield "id" same r_tlabel ms ;
    negated <- ofield "negated" same r_bool ms ;
    inverse <- ofield "inverse" same r_bool ms ;
    pred <- needed (field "predicate" r_iri ms) ;
    ve <- field "valueExpr" r_sexpr ms ;
    mn <- ofield "min" same r_i32 ms ;
    mx <- ofield "max" same r_i32 ms ;
    acts <- ofield "semActs" same (r_list r_act) ms ;
    anns <- ofield "annotations" same (r_list r_ann) ms ;
    Ok (TTriple id negated inverse pred ve mn mx acts anns)
  else Err.

Definition mk (v : json) : read :=
  {| x_json := v; x_s := r_sexpr v; x_t := r_texpr v;
     x_ss := r_list r_sexpr v; x_ts := r_list r_texpr v |}.

Definition mks (ms : list (string * json)) : list (string * read) :=
  map (fun m => (fst m, mk (snd m))) ms.

Lemma r_both_obj ms : r_both (JObj ms) = (s_struct (mks ms), t_struct (mks ms)).
Proof.
  assert (map (fun '(k, v) =>
               let b := r_both v in
               let l := match v with JArr l => Some (map r_both l) | _ => None end in
               (k, {| x_json := v; x_s := fst b; x_t := snd b;
                      x_ss := match l with Some l => all (map fst l) | None => Err end;
                      x_ts := match l with Some l => all (map snd l) | None => Err end |})) ms
          = mks ms) as E.
  { unfold mks. apply map_ext. intros [k v]. cbn [fst snd]. unfold mk. f_equal.
    destruct v; try reflexivity. cbn [r_list].
    now rewrite !map_map. }
  exact (f_equal (fun x => (s_struct x, t_struct x)) E).
Qed.

Lemma untag_mks ms : untag (mks ms) = mks (untagged ms).
Proof.
  unfold untag, untagged, mks. induction ms as [|[k v] ms IH]; cbn [map filter fst snd]; [reflexivity|].
  destruct (negb _); cbn [map fst snd]; now rewrite IH.
Qed.

Lemma raw_mks ms : raw (mks ms) = ms.
Proof.
  unfold raw, mks. rewrite map_map. rewrite <- (map_id ms) at 2. apply map_ext. now intros [k v].
Qed.

Lemma field_mks {A : Type} k (rd : read -> res A) ms :
  field k rd (mks ms) = field k (fun j => rd (mk j)) ms.
Proof. apply field_map. Qed.

Lemma ofield_mks {A : Type} k (rd : read -> res A) ms :
  ofield k x_json rd (mks ms) = ofield k same (fun j => rd (mk j)) ms.
Proof. unfold ofield. now rewrite field_mks. Qed.

Lemma r_sexpr_obj ms : r_sexpr (JObj ms) = s_obj ms.
Proof.
  unfold r_sexpr. rewrite r_both_obj. cbn [fst]. unfold s_struct, s_obj.
  rewrite untag_mks, raw_mks, !field_mks, !ofield_mks. reflexivity.
Qed.

Lemma r_texpr_obj ms : r_texpr (JObj ms) = t_obj ms.
Proof.
  unfold r_texpr. rewrite r_both_obj. cbn [snd]. unfold t_struct, t_obj, t_group.
  rewrite untag_mks, !field_mks, !ofield_mks. reflexivity.
Qed.

(* The members of a variant after its tag. *)
Lemma untagged_cons t ms : mem "type" ms = false -> untagged (("type", t) :: ms) = ms.
Proof.
  intros H. assert (untagged ms = ms) as E; [|exact E]. unfold untagged.
  induction ms as [|[k v] ms IH]; [reflexivity|]. rewrite mem_cons in H.
  apply orb_false_iff in H as [H1 H2]. cbn [filter fst]. rewrite H1. cbn [negb].
  f_equal. apply IH, H2.
Qed.

Lemma variant (t : string) (ms : list (string * json)) :
  mem "type" ms = false -> needed (field "type" r_str (("type", JStr t) :: ms)) = Ok t.
Proof. intros H. now rewrite field_here. Qed.

(* ------------------------------------------------------------------ *)
(* Expressions                                                          *)

Lemma ok_or l : ok_sexpr (SOr l) <-> Forall ok_sexpr l.
Proof.
  cbn. induction l as [|e l IH]; [split; constructor|]. rewrite IH. split.
  - intros [H1 H2]. now constructor.
  - intros H. inversion H; auto.
Qed.

Lemma ok_each id l mn mx acts anns :
  ok_texpr (TEach id l mn mx acts anns) <->
  ok_opt ok_tid id /\ Forall ok_texpr l /\ ok_opt ok_int mn /\ ok_opt ok_int mx /\
  ok_list ok_act acts /\ ok_list ok_ann anns.
Proof.
  assert (forall l, (fix every (l : list texpr) : Prop :=
         match l with [] => True | e :: l => ok_texpr e /\ every l end) l <-> Forall ok_texpr l) as H.
  { clear. induction l as [|e l IH]; [split; constructor|]. rewrite IH. split.
    - intros [H1 H2]. now constructor.
    - intros H. inversion H; auto. }
  cbn [ok_texpr]. rewrite H. reflexivity.
Qed.

Lemma s_not_null e : w_sexpr e <> JNull. Proof. destruct e; discriminate. Qed.
Lemma t_not_null e : w_texpr e <> JNull. Proof. destruct e; discriminate. Qed.

Lemma opt_one_iff {A : Type} (rd : json -> res A) (w : A -> json) (P : A -> Prop) o :
  (forall a, o = Some a -> (rd (w a) = Ok a <-> P a)) ->
  (match o with Some a => rmap Some (rd (w a)) | None => Ok None end = Ok o <->
   match o with Some a => P a | None => True end).
Proof.
  intros H. destruct o as [a|]; cbn; [|tauto].
  rewrite <- (H a eq_refl). apply (map_inj Some). intros b Hb. now injection Hb.
Qed.

Lemma needed_some {A : Type} (x : res A) : needed (rmap Some x) = x.
Proof. destruct x; reflexivity. Qed.

Definition group_members (id : option tlabel) (l : list texpr) (mn mx : option Z)
  (acts : option (list semact)) (anns : option (list annot)) : list (string * json) :=
  (memb "id" w_tlabel id ++
   ("expressions", JArr (map w_texpr l)) ::
   memb "min" JInt mn ++ memb "max" JInt mx ++
   memb "semActs" (w_list w_act) acts ++
   memb "annotations" (w_list w_ann) anns)%list.

Lemma group_read id l mn mx acts anns make :
  t_group (group_members id l mn mx acts anns) make =
  (id <- o_tid id ;
   l <- all (map r_texpr (map w_texpr l)) ;
   mn <- o_int mn ; mx <- o_int mx ; acts <- o_acts acts ; anns <- o_anns anns ;
   Ok (make id l mn mx acts anns)).
Proof.
  unfold t_group, group_members.
  oget "id" nn. get "expressions". rewrite needed_some.
  oget "min" nn. oget "max" nn. oget "semActs" nn. oget "annotations" nn. reflexivity.
Qed.

Lemma group_iff id l mn mx acts anns
  (make : option tlabel -> list texpr -> option Z -> option Z ->
          option (list semact) -> option (list annot) -> texpr) :
  (forall a b c d e f a' b' c' d' e' f',
     make a b c d e f = make a' b' c' d' e' f' ->
     a = a' /\ b = b' /\ c = c' /\ d = d' /\ e = e' /\ f = f') ->
  Forall (fun e => r_texpr (w_texpr e) = Ok e <-> ok_texpr e) l ->
  (t_group (group_members id l mn mx acts anns) make = Ok (make id l mn mx acts anns) <->
   ok_texpr (TEach id l mn mx acts anns)).
Proof.
  intros Hm Hl. rewrite ok_each, group_read.
  rewrite <- (all_iff r_texpr w_texpr ok_texpr l Hl).
  rewrite <- tid_opt_iff, <- !int_opt_iff, <- acts_iff, <- anns_iff. split.
  - intros H. apply bind_ok in H as (x1 & H1 & H). apply bind_ok in H as (x2 & H2 & H).
    apply bind_ok in H as (x3 & H3 & H). apply bind_ok in H as (x4 & H4 & H).
    apply bind_ok in H as (x5 & H5 & H). apply bind_ok in H as (x6 & H6 & H).
    injection H as H. apply Hm in H as (-> & -> & -> & -> & -> & ->). auto 10.
  - intros (-> & H2 & -> & -> & -> & ->). cbn [rbind]. rewrite H2. reflexivity.
Qed.

Definition goal_s (e : sexpr) : Prop := r_sexpr (w_sexpr e) = Ok e <-> ok_sexpr e.
Definition goal_t (e : texpr) : Prop := r_texpr (w_texpr e) = Ok e <-> ok_texpr e.

Lemma members_or l : Forall goal_s l ->
  (r_list r_sexpr (JArr (map w_sexpr l)) = Ok l <-> Forall ok_sexpr l).
Proof. intros H. cbn [r_list]. now apply all_iff. Qed.

Lemma step_or l : Forall goal_s l -> goal_s (SOr l).
Proof.
  intros Hl. unfold goal_s. rewrite ok_or, <- members_or by exact Hl.
  cbn [w_sexpr]. rewrite r_sexpr_obj. unfold s_obj. rewrite variant by reflexivity.
  rewrite untagged_cons by reflexivity. cbn [rbind].
  cbn [String.eqb Ascii.eqb Bool.eqb]. cbn zeta. get "shapeExprs".
  rewrite needed_some. apply map_inj. intros b Hb. now injection Hb.
Qed.

Lemma step_and l : Forall goal_s l -> goal_s (SAnd l).
Proof.
  intros Hl. unfold goal_s. change (ok_sexpr (SAnd l)) with (ok_sexpr (SOr l)).
  rewrite ok_or, <- members_or by exact Hl.
  cbn [w_sexpr]. rewrite r_sexpr_obj. unfold s_obj. rewrite variant by reflexivity.
  rewrite untagged_cons by reflexivity. cbn [rbind].
  cbn [String.eqb Ascii.eqb Bool.eqb]. cbn zeta. get "shapeExprs".
  rewrite needed_some. apply map_inj. intros b Hb. now injection Hb.
Qed.

Lemma step_not e : goal_s e -> goal_s (SNot e).
Proof.
  intros He. unfold goal_s in *. cbn [ok_sexpr]. rewrite <- He.
  cbn [w_sexpr]. rewrite r_sexpr_obj. unfold s_obj. rewrite variant by reflexivity.
  rewrite untagged_cons by reflexivity. cbn [rbind].
  cbn [String.eqb Ascii.eqb Bool.eqb]. cbn zeta. get "shapeExpr".
  rewrite needed_some. apply map_inj. intros b Hb. now injection Hb.
Qed.

Lemma nodec_untyped n : mem "type" (w_nodec n) = false.
Proof.
  unfold w_nodec. absent. cbn [orb]. apply facets_mem. cbn. intuition discriminate.
Qed.

Lemma step_node n : goal_s (SNode n).
Proof.
  unfold goal_s. cbn [ok_sexpr]. rewrite <- nodec_iff.
  cbn [w_sexpr]. rewrite r_sexpr_obj. unfold s_obj. rewrite variant by apply nodec_untyped.
  rewrite untagged_cons by apply nodec_untyped. cbn [rbind].
  cbn [String.eqb Ascii.eqb Bool.eqb]. cbn zeta.
  apply map_inj. intros b Hb. now injection Hb.
Qed.

Lemma w_shape closed extra e acts anns extends :
  w_sexpr (SShape closed extra e acts anns extends) =
  JObj (("type", JStr "Shape") ::
        memb "closed" JBool closed ++
        memb "extra" (w_list w_iri) extra ++
        memb "expression" w_texpr e ++
        memb "semActs" (w_list w_act) acts ++
        memb "annotations" (w_list w_ann) anns ++
        memb "extends" (w_list w_label) extends).
Proof. reflexivity. Qed.

Lemma w_triple id neg inv pred ve mn mx acts anns :
  w_texpr (TTriple id neg inv pred ve mn mx acts anns) =
  JObj (("type", JStr "TripleConstraint") ::
        memb "id" w_tlabel id ++
        memb "negated" JBool neg ++
        memb "inverse" JBool inv ++
        ("predicate", w_iri pred) ::
        memb "valueExpr" w_sexpr ve ++
        memb "min" JInt mn ++ memb "max" JInt mx ++
        memb "semActs" (w_list w_act) acts ++
        memb "annotations" (w_list w_ann) anns).
Proof. reflexivity. Qed.

Lemma step_shape closed extra e acts anns extends :
  (forall t, e = Some t -> goal_t t) -> goal_s (SShape closed extra e acts anns extends).
Proof.
  intros He. unfold goal_s. cbn [ok_sexpr].
  rewrite <- (opt_one_iff r_texpr w_texpr ok_texpr e He).
  rewrite <- acts_iff, <- anns_iff. unfold ok_list.
  rewrite <- (opt_iff (r_list r_iri) (w_list w_iri) (Forall ok_name) extra)
    by (intros l; apply list_iff, name_iff).
  rewrite <- (opt_iff (r_list r_label) (w_list w_label) (Forall ok_id) extends)
    by (intros l; apply list_iff, id_iff).
  rewrite w_shape. rewrite r_sexpr_obj. unfold s_obj. rewrite variant by absent.
  rewrite untagged_cons by absent. cbn [rbind].
  cbn [String.eqb Ascii.eqb Bool.eqb]. cbn zeta.
  oget "closed" nn. oget "extra" nn. oget "expression" ltac:(apply t_not_null).
  oget "semActs" nn. oget "annotations" nn. oget "extends" nn.
  fold (o_acts acts). fold (o_anns anns). rewrite bool_opt. cbn [rbind].
  split.
  - intros H. apply bind_ok in H as (x1 & H1 & H). apply bind_ok in H as (x2 & H2 & H).
    apply bind_ok in H as (x3 & H3 & H). apply bind_ok in H as (x4 & H4 & H).
    apply bind_ok in H as (x5 & H5 & H). injection H as -> -> -> -> ->. auto 10.
  - intros (H1 & H2 & H3 & H4 & H5). rewrite H1. cbn [rbind]. rewrite H2. cbn [rbind].
    rewrite H3, H4. cbn [rbind]. rewrite H5. reflexivity.
Qed.

Lemma step_external : goal_s SExternal.
Proof. split; reflexivity. Qed.

Lemma step_ref l : goal_s (SRef l).
Proof.
  unfold goal_s. cbn [ok_sexpr w_sexpr]. rewrite <- label_iff. unfold r_sexpr, w_label. cbn [r_both fst].
  apply map_inj. intros b Hb. now injection Hb.
Qed.

Lemma step_each id l mn mx acts anns : Forall goal_t l -> goal_t (TEach id l mn mx acts anns).
Proof.
  intros Hl. unfold goal_t. rewrite <- (group_iff id l mn mx acts anns TEach); [|now inversion 1|exact Hl].
  cbn [w_texpr]. rewrite r_texpr_obj. unfold t_obj. rewrite variant by absent.
  rewrite untagged_cons by absent. reflexivity.
Qed.

Lemma step_one id l mn mx acts anns : Forall goal_t l -> goal_t (TOne id l mn mx acts anns).
Proof.
  intros Hl. unfold goal_t.
  change (ok_texpr (TOne id l mn mx acts anns)) with (ok_texpr (TEach id l mn mx acts anns)).
  rewrite <- (group_iff id l mn mx acts anns TOne); [|now inversion 1|exact Hl].
  cbn [w_texpr]. rewrite r_texpr_obj. unfold t_obj. rewrite variant by absent.
  rewrite untagged_cons by absent. reflexivity.
Qed.

Lemma step_triple id neg inv pred ve mn mx acts anns :
  (forall e, ve = Some e -> goal_s e) -> goal_t (TTriple id neg inv pred ve mn mx acts anns).
Proof.
  intros He. unfold goal_t. cbn [ok_texpr].
  rewrite <- (opt_one_iff r_sexpr w_sexpr ok_sexpr ve He).
  rewrite <- acts_iff, <- anns_iff, <- tid_opt_iff, <- !int_opt_iff, <- name_iff.
  rewrite w_triple. rewrite r_texpr_obj. unfold t_obj. rewrite variant by absent.
  rewrite untagged_cons by absent. cbn [rbind].
  cbn [String.eqb Ascii.eqb Bool.eqb]. cbn zeta.
  oget "id" nn. oget "negated" nn. oget "inverse" nn. get "predicate". mget "valueExpr".
  oget "min" nn. oget "max" nn. oget "semActs" nn. oget "annotations" nn.
  fold (o_acts acts). fold (o_anns anns). fold (o_tid id). fold (o_int mn). fold (o_int mx).
  rewrite !bool_opt, needed_some. split.
  - intros H. apply bind_ok in H as (x1 & H1 & H). apply bind_ok in H as (x2 & H2 & H).
    apply bind_ok in H as (x3 & H3 & H). apply bind_ok in H as (x4 & H4 & H).
    apply bind_ok in H as (x5 & H5 & H). apply bind_ok in H as (x6 & H6 & H).
    apply bind_ok in H as (x7 & H7 & H). apply bind_ok in H as (x8 & H8 & H).
    apply bind_ok in H as (x9 & H9 & H).
    injection H as -> -> -> -> -> -> -> -> ->. auto 10.
  - intros (H1 & H2 & H3 & H4 & H5 & H6 & H7). rewrite H1. cbn [rbind]. rewrite H2. cbn [rbind].
    rewrite H3. cbn [rbind]. rewrite H4, H5. cbn [rbind]. rewrite H6. cbn [rbind]. rewrite H7. reflexivity.
Qed.

Lemma step_tref l : goal_t (TRef l).
Proof.
  unfold goal_t. cbn [ok_texpr w_texpr]. rewrite <- tlabel_iff. unfold r_texpr, w_tlabel. cbn [r_both snd].
  apply map_inj. intros b Hb. now injection Hb.
Qed.

Lemma sexpr_iff e : r_sexpr (w_sexpr e) = Ok e <-> ok_sexpr e.
Proof.
  exact (sexpr_each goal_s goal_t step_or step_and step_not step_node step_shape step_external step_ref
           step_each step_one step_triple step_tref e).
Qed.

Lemma texpr_iff e : r_texpr (w_texpr e) = Ok e <-> ok_texpr e.
Proof.
  exact (texpr_each goal_s goal_t step_or step_and step_not step_node step_shape step_external step_ref
           step_each step_one step_triple step_tref e).
Qed.

(* ------------------------------------------------------------------ *)
(* Schemas                                                              *)

Lemma decl_iff d : r_decl (w_decl d) = Ok d <-> ok_decl d.
Proof.
  destruct d as [t id b e]. unfold ok_decl. cbn [d_id d_expr].
  rewrite <- id_iff, <- sexpr_iff. unfold r_decl, w_decl. cbn [d_type d_id d_abstract d_expr].
  get "type". get "id". get "abstract". get "shapeExpr". rewrite !needed_some.
  cbn [r_str rbind rmap r_bool]. split.
  - intros H. apply bind_ok in H as (i & H1 & H). apply bind_ok in H as (x & H2 & H).
    injection H as -> ->. auto.
  - intros [-> ->]. reflexivity.
Qed.

Lemma import_iff i : r_import (w_import i) = Ok i <-> ok_import i.
Proof. destruct i as [s|i]; cbn; [tauto|]. split; [discriminate|contradiction]. Qed.

Lemma iris_iff s : r_iris (JStr s) = Ok s <-> ok_iris s.
Proof.
  unfold r_iris, ok_iris. cbn [r_str rbind]. destruct (String.eqb_spec s "") as [->|H].
  - split; [now left|reflexivity].
  - destruct (iri_ok s); split; intros H'; auto; [discriminate|destruct H'; [contradiction|discriminate]].
Qed.

Lemma iris_got s t : r_iris (JStr s) = Ok t -> t = s /\ ok_iris s.
Proof.
  unfold r_iris, ok_iris. cbn [r_str rbind]. destruct (String.eqb_spec s "") as [->|H].
  - intros E. injection E as <-. auto.
  - destruct (iri_ok s); [|discriminate]. intros E. injection E as <-. auto.
Qed.

Lemma insert_keys l k v : map fst (insert l k v) = map fst l \/
  (~ In k (map fst l) /\ insert l k v = (l ++ [(k, v)])%list).
Proof.
  induction l as [|[k' v'] l IH]; cbn; [right; split; [tauto|reflexivity]|].
  destruct (String.eqb_spec k k') as [->|H]; [now left|]. cbn.
  destruct IH as [E|[Hn E]]; [left; now rewrite E|].
  right. rewrite E. split; [|reflexivity]. intros [E'|Hin]; [now subst|contradiction].
Qed.

Lemma insert_nodup l k v : NoDup (map fst l) -> NoDup (map fst (insert l k v)).
Proof.
  intros H. destruct (insert_keys l k v) as [->|[Hn ->]]; [exact H|].
  rewrite map_app. cbn. rewrite <- (rev_involutive (map fst l ++ [k])). apply NoDup_rev.
  rewrite rev_app_distr. cbn. constructor; [|now apply NoDup_rev]. now rewrite <- in_rev.
Qed.

Lemma insert_new l k v : ~ In k (map fst l) -> insert l k v = (l ++ [(k, v)])%list.
Proof.
  induction l as [|[k' v'] l IH]; cbn; [reflexivity|]. intros H.
  destruct (String.eqb_spec k k') as [->|Hk]; [exfalso; auto|]. now rewrite IH by auto.
Qed.

Lemma entries_nodup ms acc r :
  NoDup (map fst acc) -> r_entries acc ms = Ok r -> NoDup (map fst r).
Proof.
  revert acc. induction ms as [|[k j] ms IH]; intros acc Hn; cbn -[r_iris].
  - intros H. now injection H as <-.
  - intros H. apply bind_ok in H as (v & _ & H). eapply IH; [|exact H]. now apply insert_nodup.
Qed.

Notation entry := (fun kv : string * string => (fst kv, JStr (snd kv))).

Lemma entries_vals l acc r :
  r_entries acc (map entry l) = Ok r -> Forall (fun kv => ok_iris (snd kv)) l.
Proof.
  revert acc. induction l as [|[k v] l IH]; intros acc; cbn -[r_iris]; [constructor|].
  intros H. apply bind_ok in H as (v' & Hv & H). apply iris_got in Hv as [_ Hv].
  constructor; [exact Hv|]. eapply IH, H.
Qed.

Lemma entries_app l acc :
  NoDup (map fst (acc ++ l)) -> Forall (fun kv => ok_iris (snd kv)) l ->
  r_entries acc (map entry l) = Ok (acc ++ l)%list.
Proof.
  revert acc. induction l as [|[k v] l IH]; intros acc Hn Hv; cbn -[r_iris].
  - now rewrite app_nil_r.
  - inversion Hv as [|? ? H1 H2]; subst. cbn in H1. apply iris_iff in H1. rewrite H1. cbn [rbind].
    rewrite insert_new.
    + rewrite IH; [now rewrite <- app_assoc| |exact H2]. now rewrite <- app_assoc.
    + rewrite map_app in Hn. cbn in Hn. apply NoDup_remove_2 in Hn. intros Hin. apply Hn.
      apply in_or_app. now left.
Qed.

Lemma prefixes_iff l : r_prefixes (w_prefixes l) = Ok l <-> ok_prefixes l.
Proof.
  unfold r_prefixes, w_prefixes, ok_prefixes. split.
  - intros H. split; [eapply entries_nodup; [|exact H]; constructor|]. eapply entries_vals, H.
  - intros [Hn Hv]. now apply (entries_app l []).
Qed.

Theorem schema_iff s : r_schema (w_schema s) = Ok s <-> writable s.
Proof.
  destruct s as [cx t im st ac sh pm ba so]. unfold writable.
  cbn [s_imports s_start s_acts s_shapes s_prefixes s_base s_source].
  rewrite <- acts_iff. unfold ok_list.
  rewrite <- (opt_iff (r_list r_import) (w_list w_import) (Forall ok_import) im)
    by (intros l; apply list_iff, import_iff).
  rewrite <- (opt_iff r_sexpr w_sexpr ok_sexpr st) by apply sexpr_iff.
  rewrite <- (opt_iff (r_list r_decl) (w_list w_decl) (Forall ok_decl) sh)
    by (intros l; apply list_iff, decl_iff).
  rewrite <- (opt_iff r_prefixes w_prefixes ok_prefixes pm) by apply prefixes_iff.
  rewrite <- (opt_iff r_iris JStr ok_iris ba) by apply iris_iff.
  unfold r_schema, w_schema. cbn [s_context s_type s_imports s_start s_acts s_shapes s_prefixes s_base].
  get "@context". get "type". rewrite !needed_some. cbn [r_str rbind].
  oget "imports" nn. oget "start" ltac:(apply s_not_null). oget "startActs" nn. oget "shapes" nn.
  oget "prefixmap" nn. oget "base" nn.
  fold (o_acts ac). split.
  - intros H. apply bind_ok in H as (x1 & H1 & H). apply bind_ok in H as (x2 & H2 & H).
    apply bind_ok in H as (x3 & H3 & H). apply bind_ok in H as (x4 & H4 & H).
    apply bind_ok in H as (x5 & H5 & H). apply bind_ok in H as (x6 & H6 & H).
    injection H as -> -> -> -> -> -> <-. auto 10.
  - intros (H1 & H2 & H3 & H4 & H5 & H6 & ->). rewrite H1. cbn [rbind]. rewrite H2. cbn [rbind].
    rewrite H3. cbn [rbind]. rewrite H4. cbn [rbind]. rewrite H5. cbn [rbind]. rewrite H6. reflexivity.
Qed.

End Tree.
