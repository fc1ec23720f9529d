(** From trees to sentences of the grammar, and from sentences to the pieces
    the printer writes. *)
From Coq Require Import String Ascii List ZArith Bool Lia.
From Verif Require Import PsModel PsSpec PsLemmas PsFinal PpModel PpSpec PpCase.
Import ListNotations.
Local Open Scope string_scope.
Local Open Scope list_scope.

(** * Spellings *)

Lemma small_lower a : small a = lower a. Proof. reflexivity. Qed.
Lemma cut_none t : forall k w, same_letters k w -> cut_tag true t k = None -> cut_tag true t w = None.
Proof.
  induction t as [|x t IH]; intros k w H E; [discriminate|].
  destruct k as [|a k], w as [|b w]; cbn in H; try contradiction; [reflexivity|].
  destruct H as [H1 H2]. cbn in E |- *. change (lower a = lower b) in H1. rewrite H1 in E.
  destruct (Ascii.eqb (lower x) (lower b)); [exact (IH k w H2 E)|reflexivity].
Qed.
Lemma cut_all t : forall k w, same_letters k w -> cut_tag true t k = Some "" -> cut_tag true t w = Some "".
Proof.
  induction t as [|x t IH]; intros k w H E.
  - cbn in E. injection E as ->. destruct w; [reflexivity|contradiction].
  - destruct k as [|a k], w as [|b w]; cbn in H; try contradiction; [discriminate|].
    destruct H as [H1 H2]. cbn in E |- *. change (lower a = lower b) in H1. rewrite H1 in E.
    destruct (Ascii.eqb (lower x) (lower b)); [exact (IH k w H2 E)|discriminate].
Qed.
Lemma cut_cased t : forall w, cut_tag true t w = None -> cut_tag false t w = None.
Proof.
  induction t as [|x t IH]; intros w E; [discriminate|]. destruct w as [|b w]; [reflexivity|].
  cbn in E |- *. destruct (Ascii.eqb x b) eqn:X; [|reflexivity].
  apply Ascii.eqb_eq in X. subst b. rewrite Ascii.eqb_refl in E. exact (IH w E).
Qed.
Lemma caseless_alike k w : In k caseless -> same_letters k w -> alike k w.
Proof.
  intros K H.
  assert (C : forall nc t, In (nc, t) tags ->
    cut_tag true t k = None \/ (nc = true /\ cut_tag true t k = Some "")).
  { intros nc t T.
    assert (X : forallb (fun k => forallb (fun x => match cut_tag true (snd x) k with
                   | None => true | Some "" => fst x | _ => false end) tags) caseless = true) by reflexivity.
    rewrite forallb_forall in X. specialize (X k K). rewrite forallb_forall in X. specialize (X (nc, t) T).
    cbn [fst snd] in X. destruct (cut_tag true t k) as [[|? ?]|]; [right; split; [exact X|reflexivity]|discriminate X|left; reflexivity]. }
  intros nc t T. destruct (C nc t T) as [E|[-> E]].
  - pose proof (cut_none t k w H E) as E'. destruct nc; [rewrite E, E'; auto|].
    rewrite (cut_cased _ _ E), (cut_cased _ _ E'). auto.
  - rewrite E, (cut_all t k w H E). auto.
Qed.
Lemma spelled_rtok t u : spelled t u -> rtok t u.
Proof.
  intros [->|(k & w & -> & -> & K & H)]; [left; reflexivity|]. right. exists k, w. repeat split; try reflexivity;
  apply (caseless_alike k w K H); assumption.
Qed.
Lemma spelled_refl l : Forall2 spelled l l.
Proof. induction l; constructor; [left; reflexivity|assumption]. Qed.
(** The text with the spellings of the grammar. *)
Lemma respell : forall (i : text) ts, Forall2 spelled ts (List.map snd i) ->
  exists j, List.map snd j = ts /\ R j i.
Proof.
  induction i as [|[b u] i IH]; intros ts H; cbn in H; inversion H as [|t x ts' xs H1 H2]; subst; clear H.
  - exists []. split; [reflexivity|constructor].
  - destruct (IH ts' H2) as (j & E & Rj). exists ((b, t) :: j). split; [cbn; rewrite E; reflexivity|].
    constructor; [|exact Rj]. split; [reflexivity|]. apply spelled_rtok, H1.
Qed.

(** * Documents *)

Definition toks (d : doc) : list tok := flat_map (fun p => match p with White => [] | Tok t => [t] end) d.
Lemma lay_toks : forall d w, List.map snd (lay w d) = toks d.
Proof. induction d as [|[|t] d IH]; intros w; cbn; [reflexivity|apply IH|rewrite IH; reflexivity]. Qed.
Lemma toks_app a b : toks (a ++ b) = toks a ++ toks b.
Proof. apply flat_map_app. Qed.
Lemma toks_cons_t t d : toks (Tok t :: d) = t :: toks d. Proof. reflexivity. Qed.
Lemma toks_cons_w d : toks (White :: d) = toks d. Proof. reflexivity. Qed.
Lemma toks_inter sep t : toks sep = [t] -> forall ds, toks (intersperse sep ds) = between t (List.map toks ds).
Proof.
  intros E. induction ds as [|d ds IH]; [reflexivity|]. cbn [intersperse]. destruct ds as [|d' ds]; [reflexivity|].
  rewrite !toks_app, E, IH. reflexivity.
Qed.
Lemma toks_inter_flat sep : toks sep = [] -> forall ds, toks (intersperse sep ds) = flat_map toks ds.
Proof.
  intros E. induction ds as [|d ds IH]; [reflexivity|]. cbn [intersperse]. destruct ds as [|d' ds].
  - cbn. rewrite app_nil_r. reflexivity.
  - rewrite !toks_app, E, IH. reflexivity.
Qed.
Lemma join_some a b : join (Some a) (Some b) = Some (a ++ b). Proof. reflexivity. Qed.
Lemma all_some_map {A B} (f : A -> option B) l : Forall (fun x => exists y, f x = Some y) l ->
  exists ys, all_some (List.map f l) = Some ys /\ Forall2 (fun x y => f x = Some y) l ys.
Proof.
  induction 1 as [|x l [y E] H IH]; [exists []; split; [reflexivity|constructor]|].
  destruct IH as (ys & E' & F). exists (y :: ys). cbn. rewrite E, E'. cbn. split; [reflexivity|constructor; assumption].
Qed.
Lemma all_some_id {A B} (f : B -> option A) (g : A -> B) l : Forall (fun x => f (g x) = Some x) l ->
  all_some (List.map f (List.map g l)) = Some l.
Proof. induction 1 as [|x l E H IH]; [reflexivity|]. cbn. rewrite E, IH. reflexivity. Qed.
Lemma Forall2_app' {A B} (P : A -> B -> Prop) a b c d : Forall2 P a c -> Forall2 P b d -> Forall2 P (a ++ b) (c ++ d).
Proof. intros H K. apply Forall2_app; assumption. Qed.
Lemma between_spelled t : forall xs ys, Forall2 (Forall2 spelled) xs ys ->
  Forall2 spelled (between t xs) (between t ys).
Proof.
  induction 1 as [|x y xs ys H HS IH]; [constructor|]. cbn [between].
  inversion HS; subst; [exact H|]. apply Forall2_app; [exact H|]. constructor; [left; reflexivity|exact IH].
Qed.

(** * Induction over trees *)

Section Induction.
Variable P : se -> Prop.
Variable T : te -> Prop.
Hypothesis HOr : forall l, Forall P l -> P (SOr l).
Hypothesis HAnd : forall l, Forall P l -> P (SAnd l).
Hypothesis HNot : forall e, P e -> P (SNot e).
Hypothesis HNode : forall c, P (SNode c).
Hypothesis HShape : forall cl ex t ac an ext, when T t -> P (SShape cl ex t ac an ext).
Hypothesis HExt : P SExternal.
Hypothesis HRef : forall l, P (SRef l).
Hypothesis HEach : forall id l mn mx ac an, Forall T l -> T (EEach id l mn mx ac an).
Hypothesis HOne : forall id l mn mx ac an, Forall T l -> T (EOne id l mn mx ac an).
Hypothesis HTc : forall id ng iv p v mn mx ac an, when P v ->
  T (ETc id ng iv p v mn mx ac an).
Hypothesis HInc : forall l, T (EInc l).
Fixpoint se_rec' (e : se) : P e :=
  match e return P e with
  | SOr l => HOr l ((fix go l := match l return Forall P l with [] => Forall_nil _ | x :: l => Forall_cons _ (se_rec' x) (go l) end) l)
  | SAnd l => HAnd l ((fix go l := match l return Forall P l with [] => Forall_nil _ | x :: l => Forall_cons _ (se_rec' x) (go l) end) l)
  | SNot e => HNot e (se_rec' e)
  | SNode c => HNode c
  | SShape cl ex t ac an ext => HShape cl ex t ac an ext
      (match t as o return when T o with Some t => te_rec' t | None => Logic.I end)
  | SExternal => HExt
  | SRef l => HRef l
  end
with te_rec' (t : te) : T t :=
  match t return T t with
  | EEach id l mn mx ac an => HEach id l mn mx ac an ((fix go l := match l return Forall T l with [] => Forall_nil _ | x :: l => Forall_cons _ (te_rec' x) (go l) end) l)
  | EOne id l mn mx ac an => HOne id l mn mx ac an ((fix go l := match l return Forall T l with [] => Forall_nil _ | x :: l => Forall_cons _ (te_rec' x) (go l) end) l)
  | ETc id ng iv p v mn mx ac an => HTc id ng iv p v mn mx ac an
      (match v as o return when P o with Some e => se_rec' e | None => Logic.I end)
  | EInc l => HInc l
  end.
Lemma trees_ind : (forall e, P e) /\ (forall t, T t).
Proof. split; [exact se_rec'|exact te_rec']. Qed.
End Induction.

(** * Sentences for trees *)

Section Sentences.
Variable qualify : nat -> option (string * option nat).
Variable type_iri : nat.
Variable lit_prints : nat -> bool.
Variable print_values : nat -> option nat.
Variable expand : nat -> option nat -> nat.
Variable rebase : nat -> nat -> option nat.
Variable deref_values : option nat -> option prefixes -> nat -> option nat.
Variable deref_lit : option nat -> option prefixes -> nat -> option nat.
Variable base : option nat.
Variable pm : option prefixes.
Hypothesis keys : match pm with Some l => NoDup (List.map fst l) | None => True end.

Definition Qi (i : nat) : iriref := match qualify i with Some (p, l) => RName p l | None => RIri i end.
Definition Q (r : iriref) : iriref := match r with RIri i => Qi i | RType => Qi type_iri | RName p l => RName p l end.
Definition QL (l : label) : label := match l with LIri r => LIri (Q r) | LBnode b => LBnode b end.
Definition QA (a : annot) : annot := (Q (fst a), match snd a with VIri r => VIri (Q r) | VLit l => VLit l end).
Definition QS (a : act) : act := (Q (fst a), snd a).
Definition un {A} (o : option (list A)) : list A := match o with Some l => l | None => [] end.

Lemma Qi_tok i : iri_tok (Qi i) = pp_iri qualify i.
Proof. unfold Qi, pp_iri. destruct (qualify i) as [[p l]|]; reflexivity. Qed.
Lemma Q_tok r : iri_tok (Q r) = pp_iri_ref qualify type_iri r.
Proof. destruct r; cbn; [reflexivity|apply Qi_tok|apply Qi_tok]. Qed.
Lemma Q_type r : Q r <> RType.
Proof. destruct r; cbn; unfold Qi; try destruct (qualify _) as [[? ?]|]; discriminate. Qed.
Lemma QL_tok l : label_tok (QL l) = pp_label qualify type_iri l.
Proof. destruct l; cbn; [apply Q_tok|reflexivity]. Qed.
Lemma QL_ref l : pp_reference qualify type_iri l = TRef (QL l).
Proof.
  unfold pp_reference. rewrite <- QL_tok. destruct l as [r|b]; [|reflexivity].
  cbn. pose proof (Q_type r). destruct (Q r); [reflexivity|reflexivity|contradiction].
Qed.

Notation faithful := (faithful qualify type_iri expand rebase base pm).
Notation resolved := (resolved qualify type_iri expand rebase base pm).
Notation deref_iri := (deref_iri expand rebase type_iri base pm).
Lemma find_declared p ns : declared pm p ns -> exists l, pm = Some l /\ find_prefix p l = Some ns.
Proof.
  unfold declared. destruct pm as [l|]; [|contradiction]. intros H. exists l. split; [reflexivity|].
  induction l as [|[q j] l IH]; [contradiction|]. cbn in keys |- *. inversion keys as [|? ? K1 K2]; subst.
  destruct H as [H|H].
  - injection H as -> ->. rewrite String.eqb_refl. reflexivity.
  - destruct (String.eqb_spec p q) as [->|_]; [|apply IH; assumption].
    exfalso. apply K1. apply (in_map fst) in H. exact H.
Qed.
Lemma deref_Qi i : faithful i -> deref_iri (Qi i) = Some (RIri i).
Proof.
  intros [H B]. unfold Qi. destruct (qualify i) as [[p l]|].
  - destruct H as (_ & ns & D & ->). cbn. destruct (find_declared p ns D) as (m & -> & E). cbn. rewrite E. reflexivity.
  - cbn. destruct base; [rewrite B|]; reflexivity.
Qed.
Lemma deref_Q r : resolved r -> deref_iri (Q r) = Some r.
Proof. intros (i & -> & F). apply deref_Qi, F. Qed.
Lemma clear_Qi i ts : faithful i -> clear_names ts -> clear_names (iri_tok (Qi i) :: ts).
Proof.
  intros [H _] C. unfold Qi. destruct (qualify i) as [[p l]|]; intros q m [E|Hin]; try discriminate E; try (eapply C; exact Hin).
  injection E as <- <-. apply H.
Qed.
Lemma clear_Q r ts : resolved r -> clear_names ts -> clear_names (iri_tok (Q r) :: ts).
Proof. intros (i & -> & F). apply clear_Qi, F. Qed.
Lemma clear_nil : clear_names []. Proof. intros p l []. Qed.
Lemma clear_tok t ts : (forall p l, t <> TName p l) -> clear_names ts -> clear_names (t :: ts).
Proof. intros H C p l [E|Hin]; [exfalso; exact (H p l E)|exact (C p l Hin)]. Qed.
Lemma clear_app2 xs ys : clear_names xs -> clear_names ys -> clear_names (xs ++ ys).
Proof. intros. apply clear_app; auto. Qed.
Lemma clear_flat2 {A} (f : A -> list tok) l : Forall (fun x => clear_names (f x)) l -> clear_names (flat_map f l).
Proof. induction 1; cbn; [apply clear_nil|apply clear_app2; assumption]. Qed.
Lemma clear_between t l : (forall p m, t <> TName p m) -> Forall clear_names l -> clear_names (between t l).
Proof.
  intros H F. induction F as [|x l C F IH]; [apply clear_nil|]. cbn [between]. destruct l; [exact C|].
  apply clear_app2; [exact C|]. apply clear_tok; assumption.
Qed.

Notation label_fine := (label_fine qualify type_iri expand rebase base pm).
Notation annot_fine := (annot_fine qualify type_iri lit_prints expand rebase deref_lit base pm).
Notation act_fine := (act_fine qualify type_iri expand rebase base pm).
Notation node_fine := (node_fine qualify type_iri print_values expand rebase deref_values base pm).
Notation se_fine := (se_fine qualify type_iri lit_prints print_values expand rebase deref_values deref_lit base pm).
Notation te_fine := (te_fine qualify type_iri lit_prints print_values expand rebase deref_values deref_lit base pm).
Notation deref_label := (deref_label expand rebase type_iri base pm).
Notation deref_annot := (deref_annot expand rebase type_iri deref_lit base pm).
Notation deref_act := (deref_act expand rebase type_iri base pm).
Notation deref_node := (deref_node expand rebase type_iri deref_values base pm).
Notation deref_se := (deref_se expand rebase type_iri deref_values deref_lit base pm).
Notation deref_te := (deref_te expand rebase type_iri deref_values deref_lit base pm).

Lemma deref_QL l : label_fine l -> deref_label (QL l) = Some l.
Proof. destruct l as [r|b]; [|reflexivity]. intros H. cbn. rewrite (deref_Q r H). reflexivity. Qed.
Lemma deref_QA a : annot_fine a -> deref_annot (QA a) = Some a.
Proof.
  destruct a as [p o]. intros [H1 H2]. unfold QA, PpModel.deref_annot. cbn [fst snd] in *. rewrite (deref_Q p H1). cbn [obind].
  destruct o as [r|l]; [rewrite (deref_Q r H2); reflexivity|]. destruct H2 as [_ ->]. reflexivity.
Qed.
Lemma deref_QS a : act_fine a -> deref_act (QS a) = Some a.
Proof. destruct a as [p o]. intros H. unfold QS, PpModel.deref_act. cbn [fst snd]. rewrite (deref_Q p H). reflexivity. Qed.
Lemma deref_lists {A} (f : A -> option A) (g : A -> A) (Pr : A -> Prop) o :
  (forall x, Pr x -> f (g x) = Some x) -> some_of Pr o ->
  deref_opt (deref_list f) (PsSpec.some (List.map g (un o))) = Some o.
Proof.
  intros H F. destruct o as [l|]; [|reflexivity]. destruct F as [N F]. cbn [un].
  destruct l as [|x l]; [contradiction|]. cbn [List.map PsSpec.some deref_opt]. unfold deref_list.
  change (g x :: List.map g l) with (List.map g (x :: l)).
  rewrite (all_some_id f g). reflexivity. apply Forall_impl with (2 := F). exact H.
Qed.

(** ** Annotations and actions *)

Notation pp_annotations := (pp_annotations qualify type_iri lit_prints).
Notation pp_actions := (pp_actions qualify type_iri).
Lemma annots_print an : some_of annot_fine an ->
  exists d, opt_pp an pp_annotations = Some d /\ toks d = flat_map annot_toks (List.map QA (un an)).
Proof.
  destruct an as [l|]; [|intros _; exists []; split; reflexivity]. intros [_ F]. cbn [opt_pp un].
  destruct (all_some_map (pp_annotation qualify type_iri lit_prints) l) as (ds & E & F2).
  { apply Forall_impl with (2 := F). intros [p o] [_ H]. unfold pp_annotation. cbn [fst snd] in *.
    destruct o as [r|x]; cbn; [|destruct H as [-> _]; cbn]; eexists; reflexivity. }
  unfold PpModel.pp_annotations. rewrite E. eexists. split; [reflexivity|]. rewrite toks_cons_w, toks_inter_flat by reflexivity.
  clear E. induction F2 as [|[p o] d l ds E F2 IH]; [reflexivity|]. cbn [flat_map List.map].
  rewrite IH by (inversion F; assumption). f_equal.
  unfold pp_annotation in E. cbn [fst snd] in E. unfold QA, annot_toks. cbn [fst snd].
  destruct o as [r|x]; cbn [pp_object_value] in E.
  - injection E as <-. cbn. rewrite !Q_tok. reflexivity.
  - destruct (lit_prints x); [|discriminate]. injection E as <-. cbn. rewrite Q_tok. reflexivity.
Qed.
Lemma acts_print ac : exists d, opt_pp ac pp_actions = Some d /\ toks d = flat_map act_toks (List.map QS (un ac)).
Proof.
  destruct ac as [l|]; [|exists []; split; reflexivity]. eexists. split; [reflexivity|]. cbn [un].
  rewrite toks_app, toks_inter_flat by reflexivity. cbn [toks flat_map]. rewrite app_nil_r.
  induction l as [|[r c] l IH]; [reflexivity|]. cbn [List.map flat_map]. rewrite IH. f_equal.
  unfold pp_action, QS, act_toks. cbn [fst snd toks flat_map app]. rewrite Q_tok. destruct c; reflexivity.
Qed.
Lemma annots_ok an : Forall annot_ok (List.map QA an).
Proof.
  induction an as [|[p o] an IH]; constructor; [|exact IH]. unfold annot_ok, QA. cbn.
  destruct o as [r|]; [|discriminate]. intros E. injection E as E. exact (Q_type r E).
Qed.
Lemma acts_ok ac : Forall act_ok (List.map QS ac).
Proof. induction ac as [|a ac IH]; constructor; [|exact IH]. apply Q_type. Qed.
Lemma annots_clear an : Forall annot_fine an -> clear_names (flat_map annot_toks (List.map QA an)).
Proof.
  intros F. rewrite flat_map_map. apply clear_flat2. apply Forall_impl with (2 := F). intros [p o] [H1 H2].
  unfold QA, annot_toks. cbn [fst snd] in *. apply clear_tok; [discriminate|]. apply clear_Q; [exact H1|].
  destruct o as [r|l]; [apply clear_Q; [exact H2|apply clear_nil]|apply clear_tok; [discriminate|apply clear_nil]].
Qed.
Lemma acts_clear ac : Forall act_fine ac -> clear_names (flat_map act_toks (List.map QS ac)).
Proof.
  intros F. rewrite flat_map_map. apply clear_flat2. apply Forall_impl with (2 := F). intros [p o] H.
  unfold QS, act_toks. cbn [fst snd] in *. apply clear_tok; [discriminate|]. apply clear_Q; [exact H|].
  apply clear_tok; [destruct o; discriminate|apply clear_nil].
Qed.
Lemma some_forall {A} (Pr : A -> Prop) o : some_of Pr o -> Forall Pr (un o).
Proof. destruct o; [intros [_ H]; exact H|constructor]. Qed.

(** ** Node constraints *)

Definition facets (fs : option (list facet)) : list facet := un fs.
Definition cst_node (c : nodec) : cse :=
  match c with
  | mkNodec (Some KLiteral) _ _ fs => CLit (CKind KLiteral (un fs))
  | mkNodec (Some k) _ _ fs => CNonLit (CKind k (un fs)) None
  | mkNodec None (Some d) _ fs => CLit (CDatatype (Q d) (un fs))
  | mkNodec None None (Some v) fs =>
      CLit (CValues (match print_values v with Some w => w | None => 0 end) (un fs))
  | mkNodec None None None fs => CNonLit (CStrings (un fs)) None
  end.
Ltac spell := right; do 2 eexists; split; [reflexivity|]; split; [reflexivity|]; split;
  [cbv [caseless In]; tauto|cbn; repeat split; reflexivity].
Lemma facets_print fs : at_most_one fs ->
  exists d, opt_pp fs pp_xsfacets = Some d /\ Forall2 spelled (flat_map facet_toks (un fs)) (toks d)
    /\ Forall is_string (un fs) /\ plain_facets (un fs) /\ clear_names (flat_map facet_toks (un fs))
    /\ PsSpec.some (un fs) = fs.
Proof.
  destruct fs as [[|f [|? ?]]|]; cbn [at_most_one]; try contradiction.
  - intros [S F]. eexists. split; [reflexivity|]. cbn [un flat_map List.map intersperse]. rewrite app_nil_r.
    split; [|split; [|split; [|split]]].
    + destruct f as [[] n|r| |]; try contradiction; cbn;
        repeat (constructor; [first [left; reflexivity|spell]|]); constructor.
    + repeat constructor. exact S.
    + split; [repeat constructor; exact F|constructor].
    + destruct f as [[] n|r| |]; try contradiction; cbn; intros p l Hin; cbn in Hin;
        repeat destruct Hin as [Hin|Hin]; try discriminate; contradiction.
    + reflexivity.
  - intros _. exists []. repeat split; try constructor. apply clear_nil.
Qed.
Lemma node_print inl c : node_fine c -> exists d,
  pp_node_constraint qualify type_iri print_values c = Some d
  /\ Forall2 spelled (se_toks (cst_node c)) (toks d)
  /\ shape_syntax inl (cst_node c) /\ plain inl (cst_node c) /\ clear_names (se_toks (cst_node c))
  /\ level (cst_node c) = 0 /\ deref_se (se_tree (cst_node c)) = Some (SNode c).
Proof.
  destruct c as [k d v fs]. intros H.
  destruct k as [k|]; [destruct d, v; try contradiction|destruct d as [d|]; [destruct v; try contradiction|destruct v as [v|]]];
    cbn [PpSpec.node_fine] in H.
  - destruct (facets_print fs H) as (fd & E & S & F1 & F2 & C & U).
    exists ([Tok (TWord (kind_word k))] ++ fd).
    split; [unfold pp_node_constraint; rewrite E; destruct k; reflexivity|].
    assert (T : se_toks (cst_node (mkNodec (Some k) None None fs)) = TWord (kind_word k) :: flat_map facet_toks (un fs)).
    { destruct k; cbn; rewrite ?app_nil_r; reflexivity. }
    rewrite T. split; [constructor; [left; reflexivity|exact S]|].
    split; [destruct k; cbn; auto|]. split; [destruct k; cbn; auto|].
    split; [apply clear_tok; [discriminate|exact C]|]. split; [destruct k; reflexivity|].
    destruct k; cbn; rewrite U; reflexivity.
  - destruct H as [Hd H]. destruct (facets_print fs H) as (fd & E & S & F1 & F2 & C & U).
    exists ([Tok (pp_iri_ref qualify type_iri d)] ++ fd).
    split; [unfold pp_node_constraint; rewrite E; reflexivity|]. cbn [cst_node se_toks node_toks].
    split; [rewrite Q_tok; constructor; [left; reflexivity|exact S]|].
    split; [apply Q_type|]. split; [exact F2|]. split; [apply clear_Q; assumption|]. split; [reflexivity|].
    cbn. rewrite (deref_Q d Hd), U. reflexivity.
  - destruct H as [(w & Ew & Dw) H]. destruct (facets_print fs H) as (fd & E & S & F1 & F2 & C & U).
    exists ([White; Tok (TVals w)] ++ fd).
    split; [unfold pp_node_constraint; rewrite E; cbn; unfold pp_value_set; rewrite Ew; reflexivity|].
    cbn [cst_node]. rewrite Ew. cbn [se_toks node_toks].
    split; [constructor; [left; reflexivity|exact S]|].
    split; [exact Logic.I|]. split; [exact F2|]. split; [apply clear_tok; [discriminate|exact C]|]. split; [reflexivity|].
    cbn. rewrite Dw, U. reflexivity.
  - destruct fs as [[|f [|? ?]]|]; try contradiction.
    destruct (facets_print (Some [f]) H) as (fd & E & S & F1 & F2 & C & U).
    exists fd. split; [unfold pp_node_constraint; rewrite E; reflexivity|]. cbn [cst_node se_toks node_toks un] in *.
    rewrite app_nil_r. split; [exact S|]. split; [cbn; repeat split; [discriminate|exact F1]|].
    split; [cbn; auto|]. split; [exact C|]. split; [reflexivity|]. reflexivity.
Qed.

(** ** Shapes and triple expressions *)

Definition cst_card (mn mx : option Z) : option ccard :=
  match mn, mx with
  | Some 0%Z, Some 1%Z => Some COptional
  | Some 0%Z, _ => Some CStar
  | Some _, _ => Some CPlus
  | None, _ => None
  end.
Definition cst_sense (ng iv : option bool) : csense :=
  match ng, iv with
  | Some _, Some _ => SNegInv
  | Some _, None => SNegated
  | None, Some _ => SInverse
  | None, None => SPlain
  end.
Definition cst_quals (cl : option bool) (ex : option (list iriref)) (ext : option (list label)) : list cqual :=
  (match cl with Some _ => [CClosed] | None => [] end)
  ++ (match ex with Some ps => [CExtra (List.map Q ps)] | None => [] end)
  ++ List.map (fun l => CExtends false (QL l)) (un ext).
Fixpoint cst (e : se) : cse :=
  match e with
  | SOr l => COr (List.map cst l)
  | SAnd l => CAnd (List.map cst l)
  | SNot e => CNot (cst e)
  | SNode c => cst_node c
  | SShape cl ex t ac an ext =>
      CSub (CDef (cst_quals cl ex ext) (match t with Some t => Some (cst_te t) | None => None end)
              (List.map QA (un an)) []) None
  | SExternal => CDot
  | SRef l => CSub (CRf (QL l)) None
  end
with cst_te (t : te) : cte :=
  match t with
  | EEach _ l _ _ _ _ | EOne _ l _ _ _ _ => CGroup (List.map cst_te l) false
  | ETc _ ng iv p v mn mx ac an =>
      CTc None (cst_sense ng iv) (Q p) (match v with Some e => cst e | None => CDot end) (cst_card mn mx)
        (List.map QA (un an)) (List.map QS (un ac))
  | EInc l => CInc (QL l)
  end.

Notation pp_shape_expr := (pp_shape_expr qualify type_iri lit_prints print_values).
Notation pp_triple_expr := (pp_triple_expr qualify type_iri lit_prints print_values).

(** What is to be proved of an expression. *)
Definition goes (inl : bool) (e : se) : Prop := exists d,
  pp_shape_expr e = Some d /\ Forall2 spelled (se_toks (cst e)) (toks d)
  /\ shape_syntax inl (cst e) /\ plain inl (cst e) /\ clear_names (se_toks (cst e))
  /\ level (cst e) = rank e /\ deref_se (se_tree (cst e)) = Some e.
Definition goes_te (t : te) : Prop := exists d,
  pp_triple_expr t = Some d /\ Forall2 spelled (te_toks (cst_te t)) (toks d)
  /\ triple_syntax (cst_te t) /\ plain_te (cst_te t) /\ clear_names (te_toks (cst_te t))
  /\ deref_te (te_tree (cst_te t)) = Some t.

Lemma all_rank inl k l : (fix all l := match l with
    | [] => True
    | e :: l => (rank e <= k /\ se_fine inl e) /\ all l end) l <-> Forall (fun e => rank e <= k /\ se_fine inl e) l.
Proof.
  induction l as [|e l IH]; [split; constructor|]. rewrite IH. split.
  - intros [H1 H2]. constructor; assumption.
  - intros H. inversion H; subst. split; assumption.
Qed.
Lemma all_tc l : (fix all l := match l with
    | [] => True
    | t :: l => (match t with ETc _ _ _ _ _ _ _ _ _ => True | _ => False end /\ te_fine t) /\ all l end) l
  <-> Forall (fun t => match t with ETc _ _ _ _ _ _ _ _ _ => True | _ => False end /\ te_fine t) l.
Proof.
  induction l as [|e l IH]; [split; constructor|]. rewrite IH. split.
  - intros [H1 H2]. constructor; assumption.
  - intros H. inversion H; subst. split; assumption.
Qed.
Lemma deref_goes inl l : Forall (goes inl) l ->
  all_some (List.map deref_se (List.map se_tree (List.map cst l))) = Some l.
Proof.
  rewrite (map_map cst se_tree). intros H. apply (all_some_id _ (fun x => se_tree (cst x))). apply Forall_impl with (2 := H).
  intros e (d & _ & _ & _ & _ & _ & _ & E). exact E.
Qed.
Lemma list_prints inl w l : Forall (goes inl) l -> exists ds,
  all_some (List.map pp_shape_expr l) = Some ds
  /\ Forall2 spelled (between (TWord w) (List.map se_toks (List.map cst l)))
       (toks (intersperse [White; Tok (TWord w); White] ds)).
Proof.
  intros H. rewrite map_map.
  assert (X : exists ds, all_some (List.map pp_shape_expr l) = Some ds
             /\ Forall2 (Forall2 spelled) (List.map (fun e => se_toks (cst e)) l) (List.map toks ds)).
  { induction H as [|e l (d & E & S & _) H (ds & E' & S')]; [exists []; split; [reflexivity|constructor]|].
    exists (d :: ds). cbn [List.map all_some]. rewrite E, E'. split; [reflexivity|constructor; assumption]. }
  destruct X as (ds & E & S). exists ds. split; [exact E|]. rewrite (toks_inter _ (TWord w)) by reflexivity.
  apply between_spelled, S.
Qed.
Lemma connective_goes inl l k :
  Forall (fun e => forall inl, se_fine inl e -> goes inl e) l ->
  Forall (fun e => rank e <= k /\ se_fine inl e) l ->
  Forall (goes inl) l
  /\ (fix all l := match l with
      | [] => True
      | c :: l => (level c <= k /\ shape_syntax inl c) /\ all l end) (List.map cst l)
  /\ (fix all l := match l with [] => True | c :: l => plain inl c /\ all l end) (List.map cst l)
  /\ Forall clear_names (List.map se_toks (List.map cst l)).
Proof.
  induction 1 as [|e l He Hl IH]; intros F; [repeat constructor|]. inversion F as [|? ? [F1 F2] F3]; subst.
  destruct (IH F3) as (G & A1 & A2 & A3). pose proof (He inl F2) as Ge.
  split; [constructor; assumption|]. destruct Ge as (d & _ & _ & S & Pl & C & L & _).
  cbn [List.map]. rewrite L. split; [split; [split; assumption|exact A1]|]. split; [split; assumption|]. constructor; assumption.
Qed.

Lemma quals_print cl ex ext : flag_fine cl -> some_of resolved ex ->
  match ext with None => True | Some [l] => label_fine l | _ => False end ->
  exists d, join (Some match cl with Some true => [Tok (TWord "CLOSED"); White] | _ => [] end)
      (join (opt_pp ex (pp_extra qualify type_iri)) (opt_pp ext (pp_extends qualify type_iri))) = Some d
  /\ toks d = flat_map qual_toks (cst_quals cl ex ext)
  /\ Forall qual_ok (cst_quals cl ex ext) /\ clear_names (flat_map qual_toks (cst_quals cl ex ext))
  /\ closed_tree (cst_quals cl ex ext) = cl /\ PsSpec.some (extra_tree (cst_quals cl ex ext)) = PsSpec.some (List.map Q (un ex))
  /\ PsSpec.some (extends_tree (cst_quals cl ex ext)) = PsSpec.some (List.map QL (un ext)).
Proof.
  intros Hc He Hx.
  assert (Ex : exists d, opt_pp ex (pp_extra qualify type_iri) = Some d
     /\ toks d = flat_map qual_toks (match ex with Some ps => [CExtra (List.map Q ps)] | None => [] end)).
  { destruct ex as [ps|]; [|exists []; split; reflexivity]. eexists. split; [reflexivity|].
    rewrite toks_app, toks_inter_flat by reflexivity. cbn. f_equal. rewrite app_nil_r. clear He.
    induction ps as [|p ps IH]; [reflexivity|]. cbn. rewrite IH, Q_tok. reflexivity. }
  assert (Xx : exists d, opt_pp ext (pp_extends qualify type_iri) = Some d
     /\ toks d = flat_map qual_toks (List.map (fun l => CExtends false (QL l)) (un ext))).
  { destruct ext as [[|l [|? ?]]|]; try contradiction; [|exists []; split; reflexivity].
    eexists. split; [reflexivity|]. cbn. rewrite QL_ref. reflexivity. }
  destruct Ex as (d1 & E1 & T1), Xx as (d2 & E2 & T2). rewrite E1, E2, !join_some. eexists. split; [reflexivity|].
  assert (Tc : toks (match cl with Some true => [Tok (TWord "CLOSED"); White] | _ => [] end)
             = flat_map qual_toks (match cl with Some _ => [CClosed] | None => [] end)).
  { destruct Hc as [->| ->]; reflexivity. }
  split; [rewrite !toks_app, T1, T2; unfold cst_quals; rewrite !flat_map_app; f_equal; exact Tc|].
  split.
  { unfold cst_quals. apply Forall_app. split; [destruct cl; repeat constructor|]. apply Forall_app. split.
    - destruct ex as [ps|]; [|constructor]. constructor; [|constructor]. destruct He as [N _]. cbn. destruct ps; [contradiction|discriminate].
    - destruct ext as [ls|]; [|constructor]. cbn. clear. induction ls; cbn; constructor; [exact Logic.I|assumption]. }
  split.
  { unfold cst_quals. rewrite !flat_map_app. apply clear_app2; [destruct cl; [apply clear_tok; [discriminate|apply clear_nil]|apply clear_nil]|].
    apply clear_app2.
    - destruct ex as [ps|]; [|apply clear_nil]. cbn. rewrite app_nil_r. apply clear_tok; [discriminate|]. destruct He as [_ He].
      clear E1 T1 d1. induction He as [|p ps Hp He IH]; [apply clear_nil|]. cbn. apply clear_Q; assumption.
    - destruct ext as [ls|]; [|apply clear_nil]. cbn. clear. induction ls; cbn; [apply clear_nil|].
      do 2 (apply clear_tok; [discriminate|]). assumption. }
  unfold cst_quals, closed_tree, extra_tree, extends_tree. split; [|split].
  - destruct Hc as [->| ->]; [|reflexivity]. cbn. destruct ex as [ps|], ext as [[|l [|? ?]]|]; try contradiction; reflexivity.
  - rewrite !flat_map_app. f_equal. destruct cl; cbn; destruct ex as [ps|]; cbn; rewrite ?app_nil_r;
      (destruct ext as [[|l [|? ?]]|]; try contradiction; cbn; rewrite ?app_nil_r; reflexivity).
  - rewrite !flat_map_app. f_equal. destruct cl; cbn; destruct ex as [ps|]; cbn; rewrite ?app_nil_r;
      (destruct ext as [[|l [|? ?]]|]; try contradiction; reflexivity).
Qed.
Lemma card_print mn mx : card_fine mn mx ->
  toks (pp_cardinality mn mx) = card_toks (cst_card mn mx) /\ card_fits (cst_card mn mx)
  /\ card_tree (cst_card mn mx) = (mn, mx).
Proof.
  intros [[-> ->]|[[-> ->]|[[-> ->]|[-> ->]]]]; cbn; auto.
Qed.
Lemma sense_print ng iv : flag_fine ng -> flag_fine iv ->
  toks (pp_flag ng PBang ++ pp_flag iv PCaret) = sense_toks (cst_sense ng iv)
  /\ negated_tree (cst_sense ng iv) = ng /\ inverse_tree (cst_sense ng iv) = iv.
Proof. intros [->| ->] [->| ->]; cbn; auto. Qed.
Lemma clear_sense s : clear_names (sense_toks s).
Proof. destruct s; intros p l Hin; cbn in Hin; repeat destruct Hin as [Hin|Hin]; try discriminate; contradiction. Qed.
Lemma clear_card c : clear_names (card_toks c).
Proof. destruct c as [[]|]; intros p l Hin; cbn in Hin; repeat destruct Hin as [Hin|Hin]; try discriminate; contradiction. Qed.
Lemma deref_shape cl ex t ac an ext : deref_se (SShape cl ex t ac an ext) =
  obind (deref_opt (deref_list deref_iri) ex) (fun ex =>
  obind (match t with None => Some None | Some t => obind (deref_te t) (fun t => Some (Some t)) end) (fun t =>
  obind (deref_opt (deref_list deref_annot) an) (fun an =>
  obind (deref_opt (deref_list deref_act) ac) (fun ac =>
  obind (deref_opt (deref_list deref_label) ext) (fun ext =>
    Some (SShape cl ex t ac an ext)))))).
Proof. reflexivity. Qed.
Lemma deref_tc id ng iv p v mn mx ac an : deref_te (ETc id ng iv p v mn mx ac an) =
  obind (deref_opt deref_label id) (fun id =>
  obind (deref_opt (deref_list deref_annot) an) (fun an =>
  obind (deref_opt (deref_list deref_act) ac) (fun ac =>
  obind (deref_iri p) (fun p =>
  obind (match v with None => Some None | Some e => obind (deref_se e) (fun e => Some (Some e)) end) (fun v =>
    Some (ETc id ng iv p v mn mx ac an)))))).
Proof. reflexivity. Qed.

Theorem trees_go : (forall e inl, se_fine inl e -> goes inl e) /\ (forall t, te_fine t -> goes_te t).
Proof.
  apply trees_ind; cbn [PpSpec.se_fine PpSpec.te_fine].
  - intros l IH inl [Hl H]. apply all_rank in H. destruct (connective_goes inl l 2 IH H) as (G & S & Pl & C).
    destruct (list_prints inl "OR" l G) as (ds & E & T). eexists.
    split; [cbn [PpModel.pp_shape_expr]; rewrite E; reflexivity|]. split; [exact T|].
    split; [split; [rewrite map_length; exact Hl|exact S]|]. split; [exact Pl|].
    split; [apply clear_between; [discriminate|exact C]|]. split; [reflexivity|].
    cbn [cst se_tree PpModel.deref_se]. rewrite (deref_goes inl l G). reflexivity.
  - intros l IH inl [Hl H]. apply all_rank in H. destruct (connective_goes inl l 1 IH H) as (G & S & Pl & C).
    destruct (list_prints inl "AND" l G) as (ds & E & T). eexists.
    split; [cbn [PpModel.pp_shape_expr]; rewrite E; reflexivity|]. split; [exact T|].
    split; [split; [rewrite map_length; exact Hl|exact S]|]. split; [exact Pl|].
    split; [apply clear_between; [discriminate|exact C]|]. split; [reflexivity|].
    cbn [cst se_tree PpModel.deref_se]. rewrite (deref_goes inl l G). reflexivity.
  - intros e IH inl [Hr H]. destruct (IH inl H) as (d & E & T & S & Pl & C & L & D). eexists.
    split; [cbn [PpModel.pp_shape_expr]; rewrite E; reflexivity|].
    split; [constructor; [left; reflexivity|exact T]|]. rewrite Hr in L.
    split; [split; assumption|]. split; [exact Pl|]. split; [apply clear_tok; [discriminate|exact C]|].
    split; [reflexivity|]. cbn. rewrite D. reflexivity.
  - intros c inl H. exact (node_print inl c H).
  - intros cl ex t ac an ext IH inl (Hc & He & Ht & -> & Ha & Hi & Hx).
    destruct (quals_print cl ex ext Hc He Hx) as (d1 & E1 & T1 & Q1 & Q2 & Q3 & Q4 & Q5).
    destruct (annots_print an Ha) as (d3 & E3 & T3).
    assert (Tt : exists d, match t with Some t => pp_triple_expr t | None => Some [] end = Some d
      /\ Forall2 spelled (match t with Some t => te_toks (cst_te t) | None => [] end) (toks d)
      /\ match t with Some t => triple_syntax (cst_te t) | None => True end
      /\ match t with Some t => plain_te (cst_te t) | None => True end
      /\ clear_names (match t with Some t => te_toks (cst_te t) | None => [] end)
      /\ match t with Some t => deref_te (te_tree (cst_te t)) = Some t | None => True end).
    { destruct t as [t|]; [exact (IH Ht)|]. exists []. repeat split; try constructor. intros p l []. }
    destruct Tt as (d2 & E2 & T2 & S2 & P2 & C2 & D2).
    assert (X : exists d, pp_shape_expr (SShape cl ex t None an ext) = Some d
       /\ toks d = toks d1 ++ TP PLBrace :: toks d2 ++ TP PRBrace :: toks d3).
    { change (pp_shape_expr (SShape cl ex t None an ext)) with
        (join (Some match cl with Some true => [Tok (TWord "CLOSED"); White] | _ => [] end)
         (join (opt_pp ex (pp_extra qualify type_iri))
         (join (opt_pp ext (pp_extends qualify type_iri))
         (join (Some [Tok (TP PLBrace); White])
         (join (match t with Some t => pp_triple_expr t | None => Some [] end)
         (join (Some [White; Tok (TP PRBrace)]) (opt_pp an pp_annotations))))))).
      rewrite E2, E3.
      destruct (opt_pp ex (pp_extra qualify type_iri)) as [y1|]; [|discriminate E1].
      destruct (opt_pp ext (pp_extends qualify type_iri)) as [y2|]; [|discriminate E1].
      rewrite !join_some in E1 |- *. injection E1 as <-. eexists. split; [reflexivity|]. rewrite !toks_app. cbn [toks flat_map app].
      rewrite <- !app_assoc. reflexivity. }
    destruct X as (d & E & T). exists d. split; [exact E|].
    assert (QT : se_toks (cst (SShape cl ex t None an ext)) =
       flat_map qual_toks (cst_quals cl ex ext) ++ TP PLBrace
       :: match t with Some t => te_toks (cst_te t) | None => [] end
       ++ TP PRBrace :: flat_map annot_toks (List.map QA (un an))).
    { destruct t; cbn; rewrite ?app_nil_r; reflexivity. }
    rewrite QT, T, <- T1, <- T3.
    split.
    { apply Forall2_app; [apply spelled_refl|]. constructor; [left; reflexivity|].
      apply Forall2_app; [exact T2|]. constructor; [left; reflexivity|]. apply spelled_refl. }
    split.
    { cbn. split; [|exact Logic.I]. split; [exact Q1|]. split; [destruct t; [exact S2|exact Logic.I]|].
      split; [apply annots_ok|]. split; [constructor|]. intros Hin. destruct (Hi Hin) as [-> _]. split; reflexivity. }
    split.
    { cbn. split; [|exact Logic.I]. split; [destruct t; [exact P2|exact Logic.I]|].
      intros Hin. destruct (Hi Hin) as [_ ->]. cbn in Q5.
      destruct (extends_tree (cst_quals cl ex None)); [reflexivity|discriminate Q5]. }
    split.
    { rewrite T1, T3. apply clear_app2; [exact Q2|]. apply clear_tok; [discriminate|]. apply clear_app2; [exact C2|].
      apply clear_tok; [discriminate|]. apply annots_clear, some_forall, Ha. }
    split; [reflexivity|].
    cbn [cst se_tree sr_tree]. rewrite Q3, Q4, Q5, deref_shape.
    rewrite (deref_lists deref_iri Q resolved ex deref_Q He). cbn [obind].
    rewrite (deref_lists deref_annot QA annot_fine an deref_QA Ha).
    assert (Hx' : some_of label_fine ext).
    { destruct ext as [[|l [|? ?]]|]; try contradiction; cbn; repeat constructor; try discriminate. exact Hx. }
    rewrite (deref_lists deref_label QL label_fine ext deref_QL Hx').
    destruct t as [t|]; cbn [obind PsSpec.some deref_opt]; [rewrite D2|]; reflexivity.
  - intros inl [].
  - intros l inl H. eexists. split; [reflexivity|]. cbn. rewrite QL_ref. split; [apply spelled_refl|].
    split; [auto|]. split; [auto|]. split; [apply clear_tok; [discriminate|apply clear_nil]|].
    split; [reflexivity|]. rewrite (deref_QL l H). reflexivity.
  - intros id l mn mx ac an IH (-> & -> & -> & -> & -> & Hl & H). apply all_tc in H.
    assert (G : Forall goes_te l).
    { rewrite Forall_forall in IH, H |- *. intros t Ht. apply IH; [exact Ht|]. apply H, Ht. }
    assert (X : exists ds, all_some (List.map pp_triple_expr l) = Some ds
               /\ Forall2 (Forall2 spelled) (List.map te_toks (List.map cst_te l)) (List.map toks ds)).
    { clear -G. rewrite map_map. induction G as [|e l (d & E & S & _) G (ds & E' & S')]; [exists []; split; [reflexivity|constructor]|].
      exists (d :: ds). cbn [List.map all_some]. rewrite E, E'. split; [reflexivity|constructor; assumption]. }
    destruct X as (ds & E & T). eexists. split; [cbn [PpModel.pp_triple_expr]; rewrite E; reflexivity|].
    split.
    { cbn [cst_te te_toks]. rewrite app_nil_r, (toks_inter _ (TP PSemi)) by reflexivity. apply between_spelled, T. }
    split.
    { split; [left; rewrite map_length; exact Hl|]. clear -G H. induction G as [|t l (d & _ & _ & S & _) G IH]; [exact Logic.I|].
      inversion H as [|? ? [H1 _] H2]; subst. cbn [List.map]. split; [split; [|exact S]|apply IH, H2].
      destruct t; try contradiction. reflexivity. }
    split.
    { cbn [cst_te plain_te]. clear -G. induction G as [|t l (d & _ & _ & _ & S & _) G IH]; [exact Logic.I|].
      cbn [List.map]. split; [exact S|exact IH]. }
    split.
    { cbn [cst_te te_toks]. rewrite app_nil_r. apply clear_between; [discriminate|].
      clear -G. induction G as [|t l (d & _ & _ & _ & _ & C & _) G IH]; constructor; assumption. }
    cbn [cst_te te_tree]. destruct l as [|t1 [|t2 l]]; [cbn in Hl; lia|cbn in Hl; lia|].
    cbn [List.map]. cbn [PpModel.deref_te deref_opt obind].
    change (te_tree (cst_te t1) :: te_tree (cst_te t2) :: List.map te_tree (List.map cst_te l))
      with (List.map te_tree (List.map cst_te (t1 :: t2 :: l))).
    rewrite (map_map cst_te te_tree). rewrite (all_some_id _ (fun x => te_tree (cst_te x))); [reflexivity|].
    apply Forall_impl with (2 := G). intros t (d & _ & _ & _ & _ & _ & D). exact D.
  - intros id l mn mx ac an _ [].
  - intros id ng iv p v mn mx ac an IH (-> & Hn & Hi & Hp & Hv & Hc & Ha & Ho & Hao).
    destruct (card_print mn mx Hc) as (K1 & K2 & K3). destruct (sense_print ng iv Hn Hi) as (N1 & N2 & N3).
    destruct (annots_print an Ho) as (d2 & E2 & T2). destruct (acts_print ac) as (d3 & E3 & T3).
    assert (X : exists d, match v with Some e => pp_shape_expr e | None => Some [Tok (TP PDot)] end = Some d
      /\ Forall2 spelled (se_toks (match v with Some e => cst e | None => CDot end)) (toks d)
      /\ shape_syntax true (match v with Some e => cst e | None => CDot end)
      /\ plain true (match v with Some e => cst e | None => CDot end)
      /\ clear_names (se_toks (match v with Some e => cst e | None => CDot end))
      /\ match match se_tree (match v with Some e => cst e | None => CDot end) with
               | SShape None None None None None None => None | e => Some e end with
         | None => Some None | Some e => obind (deref_se e) (fun e => Some (Some e)) end = Some v).
    { destruct v as [e|].
      - destruct Hv as [Hv Hu]. destruct (IH true Hv) as (d & E & T & S & Pl & C & L & D).
        exists d. repeat (split; [assumption|]).
        assert (U : ~ unconstrained (se_tree (cst e))).
        { unfold unconstrained. intros U. rewrite U in D. cbn in D. injection D as D. apply Hu. symmetry. exact D. }
        destruct (se_tree (cst e)) as [| | | |[] [] [] [] [] []| |]; try (rewrite D; reflexivity).
        exfalso. apply U. reflexivity.
      - eexists. split; [reflexivity|]. split; [apply spelled_refl|]. repeat (split; [exact Logic.I|]).
        split; [apply clear_tok; [discriminate|apply clear_nil]|]. reflexivity. }
    destruct X as (d1 & E1 & T1 & S1 & P1 & C1 & D1).
    assert (Y : opt_pp ac pp_actions = Some d3 /\ opt_pp an pp_annotations = Some d2) by (split; assumption).
    exists ((pp_flag ng PBang ++ pp_flag iv PCaret ++ [Tok (pp_iri_ref qualify type_iri p); White])
            ++ d1 ++ pp_cardinality mn mx ++ d3 ++ d2).
    split.
    { change (pp_triple_expr (ETc None ng iv p v mn mx ac an)) with
        (join (Some (pp_flag ng PBang ++ pp_flag iv PCaret ++ [Tok (pp_iri_ref qualify type_iri p); White]))
         (join (match v with Some e => pp_shape_expr e | None => Some [Tok (TP PDot)] end)
         (join (Some (pp_cardinality mn mx))
         (join (opt_pp ac pp_actions) (opt_pp an pp_annotations))))).
      rewrite E1, E2, E3. reflexivity. }
    split.
    { rewrite toks_app in N1. cbn [cst_te te_toks id_toks app]. rewrite !toks_app, K1, T2, T3.
      assert (N : forall x, toks (pp_flag ng PBang) ++ toks (pp_flag iv PCaret) ++ x = sense_toks (cst_sense ng iv) ++ x).
      { intros x. rewrite app_assoc, N1. reflexivity. }
      rewrite N, <- app_assoc. apply Forall2_app; [apply spelled_refl|]. cbn [toks flat_map app].
      rewrite Q_tok. constructor; [left; reflexivity|]. apply Forall2_app; [exact T1|].
      apply Forall2_app; [apply spelled_refl|].
      destruct Hao as [->| ->]; cbn [un List.map flat_map app]; rewrite ?app_nil_r; apply spelled_refl. }
    split; [split; [exact Logic.I|]; split; [exact S1|]; split; [apply annots_ok|apply acts_ok]|].
    split; [split; assumption|].
    split.
    { cbn [cst_te te_toks id_toks app]. apply clear_app2; [apply clear_sense|]. apply clear_Q; [exact Hp|].
      apply clear_app2; [exact C1|]. apply clear_app2; [apply clear_card|].
      apply clear_app2; [apply annots_clear, some_forall, Ho|apply acts_clear, some_forall, Ha]. }
    cbn [cst_te te_tree]. rewrite N2, N3, K3, deref_tc. cbn [fst snd]. change (deref_opt deref_label None) with (Some (@None label)). cbn [obind].
    rewrite (deref_lists deref_annot QA annot_fine an deref_QA Ho). cbn [obind].
    rewrite (deref_lists deref_act QS act_fine ac deref_QS Ha). cbn [obind].
    rewrite (deref_Q p Hp). cbn [obind]. rewrite D1. reflexivity.
  - intros l [].
Qed.
End Sentences.
