(** Printed schemas are read back; their tokens do not run into each other. *)
From Coq Require Import String List ZArith Bool Lia.
From Verif Require Import PsModel PsSpec PsLemmas PsFinal PpModel PpSpec PpCase PpLemmas.
Import ListNotations.
Local Open Scope string_scope.
Local Open Scope list_scope.

Section Schemas.
Variable qualify : nat -> option (string * option nat).
Variable type_iri : nat.
Variable lit_prints : nat -> bool.
Variable print_values : nat -> option nat.
Variable expand : nat -> option nat -> nat.
Variable rebase : nat -> nat -> option nat.
Variable deref_values : option nat -> option prefixes -> nat -> option nat.
Variable deref_lit : option nat -> option prefixes -> nat -> option nat.
Variable pm : option prefixes.
Variable base : option nat.
Variable im : option (list iriref).
Variable ac : option (list act).
Variable st : option se.
Variable sh : option (list (bool * label * se)).
Definition sc : schema := mkSchema pm base im ac st sh.

Notation Q := (Q qualify type_iri).
Notation QL := (QL qualify type_iri).
Notation QS := (QS qualify type_iri).
Notation cst := (cst qualify type_iri print_values).
Notation se_fine := (se_fine qualify type_iri lit_prints print_values expand rebase deref_values deref_lit base pm).
Notation decl_fine := (decl_fine qualify type_iri lit_prints print_values expand rebase deref_values deref_lit base pm).
Notation name_fine := (name_fine qualify type_iri expand rebase base pm).
Hypothesis fine : printable qualify type_iri lit_prints print_values expand rebase deref_values deref_lit sc.

Definition d_prefixes : list cstmt := List.map (fun x => CPrefix (fst x) (snd x)) (un pm).
Definition d_base : list cstmt := match base with Some b => [CBase b] | None => [] end.
Definition d_imports : list cstmt := List.map (fun r => CImport (Q r)) (un im).
Definition d_acts : list cstmt := match ac with Some l => [CActions (List.map QS l)] | None => [] end.
Definition d_start : list cstmt := match st with Some e => [CStart (cst e)] | None => [] end.
Definition cst_decl (d : bool * label * se) : cstmt :=
  let '(_, l, e) := d in CShape false (QL l) (match e with SExternal => None | _ => Some (cst e) end).
Definition decl_tree (e : se) : se := match e with SExternal => SExternal | _ => se_tree (cst e) end.
Definition d_shapes : list cstmt := List.map cst_decl (un sh).
Definition document : list cstmt := d_prefixes ++ d_base ++ d_imports ++ d_acts ++ d_start ++ d_shapes.

Lemma keys : match pm with Some l => NoDup (List.map fst l) | None => True end.
Proof. pose proof fine as (H0 & _). cbn in H0. destruct pm; [apply H0|exact Logic.I]. Qed.
Lemma start_goes e : st = Some e -> goes qualify type_iri lit_prints print_values expand rebase deref_values deref_lit base pm true e.
Proof.
  intros E. pose proof fine as (_ & _ & _ & H & _). cbn in H. rewrite E in H.
  apply (proj1 (trees_go _ _ _ _ _ _ _ _ _ _ keys)), H.
Qed.
Lemma spelled_word k w ts us : In k caseless -> same_letters k w -> Forall2 spelled ts us ->
  Forall2 spelled (TWord k :: ts) (TWord w :: us).
Proof. intros K S H. constructor; [|exact H]. right. exists k, w. auto. Qed.
Ltac word := apply spelled_word; [cbv [caseless In]; tauto|cbn; repeat split; reflexivity|].

Lemma faithful_clear i t : faithful qualify type_iri expand rebase base pm i -> In t [iri_tok (Qi qualify i)] ->
  forall p l, t = TName p l -> clear p.
Proof.
  intros F Hin p l E. subst t. exact (clear_Qi qualify type_iri expand rebase base pm i [] F (clear_nil) p l Hin).
Qed.
Lemma name_clear r ts : name_fine r -> clear_names ts -> clear_names (iri_tok (Q r) :: ts).
Proof.
  intros F C. destruct r as [p l|i|]; cbn [PpLemmas.Q].
  - intros q m [E|Hin]; [injection E as <- <-; exact F|exact (C q m Hin)].
  - apply (clear_Qi qualify type_iri expand rebase base pm i ts F C).
  - apply (clear_Qi qualify type_iri expand rebase base pm type_iri ts F C).
Qed.

(** * The parts of the document *)

Definition part (o : option doc) (ds : list cstmt) : Prop := exists d, o = Some d
  /\ Forall2 spelled (doc_toks ds) (toks d) /\ Forall stmt_syntax ds /\ Forall plain_stmt ds /\ clear_names (doc_toks ds).
Lemma part_join a b xs ys : part a xs -> part b ys -> part (join a b) (xs ++ ys).
Proof.
  intros (d & -> & T & S & P & C) (e & -> & T' & S' & P' & C'). exists (d ++ e). split; [reflexivity|].
  unfold doc_toks. rewrite flat_map_app, toks_app. split; [apply Forall2_app; assumption|].
  split; [apply Forall_app; auto|]. split; [apply Forall_app; auto|]. apply clear_app2; assumption.
Qed.
Lemma part_nil : part (Some []) [].
Proof. exists []. repeat split; try constructor. intros p l []. Qed.

Lemma prefixes_part : part (opt_pp pm pp_prefix_map) d_prefixes.
Proof.
  unfold d_prefixes. pose proof fine as (H & _). cbn in H. destruct pm as [l|]; [|apply part_nil].
  destruct H as (_ & _ & H). eexists. split; [reflexivity|]. cbn [un]. rewrite toks_app, toks_inter_flat by reflexivity.
  cbn [toks flat_map]. rewrite app_nil_r.
  induction H as [|[p i] l Hp H IH]; [repeat split; try constructor; apply clear_nil|].
  destruct IH as (T & S & P & C). cbn [List.map flat_map doc_toks stmt_toks fst snd] in *. split.
  - cbn. word. repeat (constructor; [left; reflexivity|]). exact T.
  - split; [constructor; [exact Logic.I|exact S]|]. split; [constructor; [exact Logic.I|exact P]|].
    intros q m [E|[E|[E|Hin]]]; try discriminate E; [injection E as <- <-; exact Hp|exact (C q m Hin)].
Qed.
Lemma base_part : part (opt_pp base pp_base) d_base.
Proof.
  unfold d_base. destruct base as [b|]; [|apply part_nil]. eexists. split; [reflexivity|].
  cbn. split; [word; apply spelled_refl|]. repeat split; repeat constructor.
  intros p l [E|[E|[]]]; discriminate E.
Qed.
Lemma imports_part : part (opt_pp im (pp_imports qualify type_iri)) d_imports.
Proof.
  unfold d_imports. pose proof fine as (_ & H & _). cbn in H. destruct im as [l|]; [|apply part_nil].
  destruct H as [N H]. cbn [un opt_pp].
  exists (intersperse [White] (List.map (fun r => [Tok (TWord "import"); White; Tok (pp_iri_ref qualify type_iri r)]) l) ++ [White]).
  split; [destruct l; [contradiction|reflexivity]|]. rewrite toks_app, toks_inter_flat by reflexivity.
  cbn [toks flat_map]. rewrite app_nil_r. clear N.
  induction H as [|r l Hr H IH]; [repeat split; try constructor; apply clear_nil|].
  destruct IH as (T & S & P & C). cbn [List.map flat_map doc_toks stmt_toks] in *. split.
  - cbn. word. rewrite Q_tok. constructor; [left; reflexivity|]. exact T.
  - split; [constructor; [apply Q_type|exact S]|]. split; [constructor; [exact Logic.I|exact P]|].
    cbn [app]. apply clear_tok; [discriminate|]. apply name_clear; assumption.
Qed.
Lemma acts_part : part (opt_pp ac (pp_actions qualify type_iri)) d_acts.
Proof.
  unfold d_acts. destruct (acts_print qualify type_iri ac) as (d & E & T). rewrite E. exists d. split; [reflexivity|].
  pose proof fine as (_ & _ & H & _). cbn in H. destruct ac as [l|]; cbn [un] in T.
  - destruct H as [N H]. cbn [doc_toks flat_map stmt_toks]. rewrite app_nil_r, T. split; [apply spelled_refl|].
    split; [constructor; [|constructor]; split; [destruct l; [contradiction|discriminate]|apply acts_ok]|].
    split; [repeat constructor|]. rewrite flat_map_map. apply clear_flat2. apply Forall_impl with (2 := H).
    intros [r c] Hr. cbn [PpLemmas.QS act_toks fst snd]. apply clear_tok; [discriminate|]. apply name_clear; [exact Hr|].
    apply clear_tok; [destruct c; discriminate|apply clear_nil].
  - cbn in T |- *. rewrite T. repeat split; try constructor. apply clear_nil.
Qed.
Lemma start_part : part (opt_pp st (pp_start qualify type_iri lit_prints print_values)) d_start.
Proof.
  unfold d_start. pose proof start_goes as G. destruct st as [e|]; [|apply part_nil].
  destruct (G e eq_refl) as (d & E & T & S & P & C & L & D). unfold opt_pp, pp_start. rewrite E.
  exists ([Tok (TWord "start"); White; Tok (TP PEqual); White] ++ (d ++ [White])). split; [reflexivity|].
  cbn [doc_toks flat_map stmt_toks app]. rewrite app_nil_r.
  change (toks (Tok (TWord "start") :: White :: Tok (TP PEqual) :: White :: d ++ [White]))
    with (TWord "start" :: TP PEqual :: toks (d ++ [White])).
  rewrite toks_app. change (toks [White]) with (@nil tok). rewrite app_nil_r. split; [word; constructor; [left; reflexivity|exact T]|].
  split; [constructor; [exact S|constructor]|]. split; [constructor; [exact P|constructor]|].
  do 2 (apply clear_tok; [discriminate|]). exact C.
Qed.
Lemma decl_syntax d : decl_fine d -> exists x, pp_shape_decl qualify type_iri lit_prints print_values d = Some x
  /\ Forall2 spelled (stmt_toks (cst_decl d)) (toks x) /\ stmt_syntax (cst_decl d) /\ plain_stmt (cst_decl d)
  /\ clear_names (stmt_toks (cst_decl d))
  /\ stmt_tree (cst_decl d) = IShape false (QL (snd (fst d))) (decl_tree (snd d)).
Proof.
  destruct d as [[ab l] e]. intros (_ & Hl & He).
  assert (Lc : forall ts, clear_names ts -> clear_names (label_tok (QL l) :: ts)).
  { intros ts C. destruct l as [r|b]; [apply (clear_Q qualify type_iri expand rebase base pm); [exact Hl|exact C]|].
    apply clear_tok; [discriminate|exact C]. }
  assert (Lo : label_ok (QL l)).
  { unfold label_ok. destruct l as [r|b]; [|discriminate]. intros E. injection E as E. exact (Q_type _ _ r E). }
  destruct He as [->|He].
  - eexists. split; [reflexivity|]. cbn. rewrite QL_tok. split; [apply spelled_refl|]. split; [auto|]. split; [exact Logic.I|].
    split; [|reflexivity]. rewrite <- QL_tok. apply Lc. apply clear_tok; [discriminate|apply clear_nil].
  - destruct (proj1 (trees_go _ _ _ _ _ _ _ _ _ _ keys) e false He) as (d & E & T & S & P & C & L & D).
    assert (X : cst_decl (ab, l, e) = CShape false (QL l) (Some (cst e))).
    { destruct e; try contradiction; reflexivity. }
    rewrite X. unfold pp_shape_decl. rewrite E. exists ([Tok (pp_label qualify type_iri l); White] ++ d). split; [reflexivity|].
    cbn [stmt_toks app]. rewrite toks_cons_t, toks_cons_w, QL_tok.
    split; [constructor; [left; reflexivity|exact T]|]. split; [split; assumption|]. split; [exact P|].
    split; [rewrite <- QL_tok; apply Lc, C|]. destruct e; try contradiction; reflexivity.
Qed.
Lemma shapes_part : part (opt_pp sh (pp_shape_decls qualify type_iri lit_prints print_values)) d_shapes.
Proof.
  unfold d_shapes. pose proof fine as (_ & _ & _ & _ & H). cbn in H. destruct sh as [l|]; [|apply part_nil].
  destruct H as [_ H]. cbn [opt_pp un].
  assert (X : exists ds, all_some (List.map (pp_shape_decl qualify type_iri lit_prints print_values) l) = Some ds
    /\ Forall2 spelled (doc_toks (List.map cst_decl l)) (flat_map toks ds)
    /\ Forall stmt_syntax (List.map cst_decl l) /\ Forall plain_stmt (List.map cst_decl l)
    /\ clear_names (doc_toks (List.map cst_decl l))).
  { induction H as [|d l Hd H (ds & E & T & S & P & C)].
    - exists []. repeat split; try constructor. intros p m [].
    - destruct (decl_syntax d Hd) as (x & Ex & Tx & Sx & Px & Cx & _). exists (x :: ds).
      cbn [List.map all_some]. rewrite Ex, E. split; [reflexivity|].
      split; [apply Forall2_app; assumption|]. split; [constructor; assumption|]. split; [constructor; assumption|].
      apply clear_app2; assumption. }
  destruct X as (ds & E & T & S & P & C). unfold pp_shape_decls. rewrite E. eexists. split; [reflexivity|].
  rewrite toks_app, toks_inter_flat by reflexivity. cbn [toks flat_map]. rewrite app_nil_r. auto.
Qed.
Lemma whole : part (pp_schema qualify type_iri lit_prints print_values sc) document.
Proof.
  unfold document. repeat apply part_join;
    [exact prefixes_part|exact base_part|exact imports_part|exact acts_part|exact start_part|exact shapes_part].
Qed.

Lemma document_syntax : Forall stmt_syntax document -> doc_syntax document.
Proof.
  intros S. split; [exact S|]. exists (d_prefixes ++ d_base ++ d_imports), (d_acts ++ d_start ++ d_shapes).
  split; [unfold document; rewrite <- !app_assoc; reflexivity|]. split.
  - apply Forall_app. split; [|apply Forall_app; split].
    + unfold d_prefixes. apply Forall_forall. intros x Hx. apply in_map_iff in Hx. destruct Hx as (? & <- & _). exact Logic.I.
    + unfold d_base. destruct base; repeat constructor.
    + unfold d_imports. apply Forall_forall. intros x Hx. apply in_map_iff in Hx. destruct Hx as (? & <- & _). exact Logic.I.
  - assert (Y : Forall (fun s => ~ is_actions s) (d_start ++ d_shapes)).
    { apply Forall_app. split; [unfold d_start; destruct st; repeat constructor; intros []|].
      unfold d_shapes. apply Forall_forall. intros x Hx. apply in_map_iff in Hx. destruct Hx as ([[ab l] e] & <- & _). intros []. }
    unfold d_acts. destruct ac; cbn [app]; [exact Y|]. destruct (d_start ++ d_shapes); [exact Logic.I|].
    inversion Y; assumption.
Qed.

(** * Building the schema *)

Notation build := (build expand rebase type_iri deref_values deref_lit).
Lemma build_app s xs ys : build s (xs ++ ys) = obind (build s xs) (fun s => build s ys).
Proof.
  revert s. induction xs as [|x xs IH]; intros s; [reflexivity|]. cbn [app PpModel.build].
  destruct (add_stmt _ _ _ _ _ s x); cbn [obind]; [apply IH|reflexivity].
Qed.
Lemma insert_last p i l : ~ In p (List.map fst l) -> insert_prefix p i l = l ++ [(p, i)].
Proof.
  induction l as [|[q j] l IH]; intros H; [reflexivity|]. cbn. destruct (String.eqb_spec p q) as [->|_].
  - exfalso. apply H. left. reflexivity.
  - rewrite IH; [reflexivity|]. intros Hin. apply H. right. exact Hin.
Qed.
Lemma build_prefixes l0 b l : NoDup (List.map fst (l0 ++ l)) -> forall o, (match o with None => [] | Some x => x end) = l0 ->
  build (mkSchema o b None None None None) (List.map (fun x => IPrefix (fst x) (snd x)) l)
  = Some (mkSchema (match l with [] => o | _ => Some (l0 ++ l) end) b None None None None).
Proof.
  revert l0. induction l as [|[p i] l IH]; intros l0 N o Ho; [reflexivity|].
  cbn [List.map PpModel.build add_stmt obind fst snd].
  replace (insert_prefix p i _) with (insert_prefix p i l0) by (rewrite <- Ho; reflexivity). rewrite insert_last.
  2:{ rewrite map_app in N. cbn in N. apply NoDup_remove_2 in N. intros Hin. apply N, in_or_app. left. exact Hin. }
  rewrite (IH (l0 ++ [(p, i)])); [|rewrite <- app_assoc; exact N|reflexivity].
  f_equal. f_equal. destruct l; [reflexivity|]. rewrite <- app_assoc. reflexivity.
Qed.
Lemma build_imports o b l0 rs : build (mkSchema o b l0 None None None) (List.map (fun r => IImport (Q r)) rs)
  = Some (mkSchema o b (match rs with [] => l0 | _ => Some (un l0 ++ List.map Q rs) end) None None None).
Proof.
  revert l0. induction rs as [|r rs IH]; intros l0; [reflexivity|].
  cbn [List.map PpModel.build add_stmt obind]. rewrite IH. f_equal. f_equal.
  destruct rs; destruct l0; cbn; rewrite <- ?app_assoc; reflexivity.
Qed.
Lemma build_shapes i a s l0 l : Forall decl_fine l ->
  build (mkSchema pm base i a s l0) (List.map stmt_tree (List.map cst_decl l))
  = Some (mkSchema pm base i a s (match l with [] => l0 | _ => Some (un l0 ++ l) end)).
Proof.
  intros F. revert l0. induction F as [|d l Hd F IH]; intros l0; [reflexivity|]. cbn [List.map].
  destruct (decl_syntax d Hd) as (x & _ & _ & _ & _ & _ & E). rewrite E. destruct d as [[ab lb] e].
  destruct Hd as (-> & Hl & He). cbn [PpModel.build add_stmt fst snd].
  rewrite (deref_QL qualify type_iri expand rebase base pm keys lb Hl). cbn [obind].
  assert (D : deref_se expand rebase type_iri deref_values deref_lit base pm (decl_tree e) = Some e).
  { destruct He as [->|He]; [reflexivity|].
    destruct (proj1 (trees_go _ _ _ _ _ _ _ _ _ _ keys) e false He) as (d & _ & _ & _ & _ & _ & _ & D).
    destruct e; try contradiction; exact D. }
  rewrite D. cbn [obind]. rewrite IH. f_equal. f_equal.
  destruct l; destruct l0; cbn; rewrite <- ?app_assoc; reflexivity.
Qed.
Lemma qualified_same r : name_fine r -> same_name type_iri expand pm r (Q r).
Proof.
  intros F. unfold same_name. destruct r as [p l|i|]; cbn [PpLemmas.Q].
  - left. reflexivity.
  - right. exists i. split; [reflexivity|]. unfold Qi. destruct F as [F _]. destruct (qualify i) as [[p l]|]; [apply F|reflexivity].
  - right. exists type_iri. split; [reflexivity|]. unfold Qi. destruct F as [F _]. destruct (qualify type_iri) as [[p l]|]; [apply F|reflexivity].
Qed.

Lemma schema_built b0 : (base = None -> b0 = None) -> exists s',
  build (mkSchema None b0 None None None None) (List.map stmt_tree document) = Some s'
  /\ same_schema type_iri expand pm sc s'.
Proof.
  intros Hb. pose proof start_goes as G. pose proof fine as (H1 & H2 & H3 & H4 & H5). cbn in H1, H2, H3, H4, H5.
  exists (mkSchema pm base (match im with Some l => Some (List.map Q l) | None => None end)
            (match ac with Some l => Some (List.map QS l) | None => None end) st sh).
  split.
  - unfold document. rewrite !map_app. rewrite build_app.
    assert (E1 : build (mkSchema None b0 None None None None) (List.map stmt_tree d_prefixes)
               = Some (mkSchema pm b0 None None None None)).
    { unfold d_prefixes. rewrite map_map. cbn [stmt_tree]. destruct pm as [l|]; [|reflexivity].
      cbn [un]. rewrite (build_prefixes []); [|apply H1|reflexivity]. destruct l; [destruct H1; contradiction|reflexivity]. }
    rewrite E1. cbn [obind]. rewrite build_app.
    assert (E2 : build (mkSchema pm b0 None None None None) (List.map stmt_tree d_base)
               = Some (mkSchema pm base None None None None)).
    { unfold d_base. destruct base as [b|]; [reflexivity|]. rewrite (Hb eq_refl). reflexivity. }
    rewrite E2. cbn [obind]. rewrite build_app.
    assert (E3 : build (mkSchema pm base None None None None) (List.map stmt_tree d_imports)
               = Some (mkSchema pm base (match im with Some l => Some (List.map Q l) | None => None end) None None None)).
    { unfold d_imports. rewrite map_map. cbn [stmt_tree]. rewrite build_imports. f_equal. f_equal.
      destruct im as [l|]; [|reflexivity]. destruct H2 as [N _]. destruct l; [contradiction|reflexivity]. }
    rewrite E3. cbn [obind]. rewrite build_app.
    set (i := match im with Some l => Some (List.map Q l) | None => None end).
    assert (E4 : build (mkSchema pm base i None None None) (List.map stmt_tree d_acts)
               = Some (mkSchema pm base i (match ac with Some l => Some (List.map QS l) | None => None end) None None)).
    { unfold d_acts. destruct ac; reflexivity. }
    rewrite E4. cbn [obind]. rewrite build_app.
    set (a := match ac with Some l => Some (List.map QS l) | None => None end).
    assert (E5 : build (mkSchema pm base i a None None) (List.map stmt_tree d_start)
               = Some (mkSchema pm base i a st None)).
    { unfold d_start. destruct st as [e|]; [|reflexivity]. destruct (G e eq_refl) as (d & _ & _ & _ & _ & _ & _ & D).
      cbn [List.map stmt_tree PpModel.build add_stmt]. rewrite D. reflexivity. }
    rewrite E5. cbn [obind]. unfold d_shapes. rewrite build_shapes.
    + f_equal. f_equal. destruct sh as [l|]; [|reflexivity]. destruct H5 as [N _]. destruct l; [contradiction|reflexivity].
    + destruct sh as [l|]; [apply H5|constructor].
  - unfold same_schema. cbn. repeat (split; [reflexivity|]). split.
    + destruct im as [l|]; [|exact Logic.I]. destruct H2 as [_ H2]. cbn. clear -H2.
      induction H2 as [|r l Hr H IH]; constructor; [apply qualified_same, Hr|exact IH].
    + destruct ac as [l|]; [|exact Logic.I]. destruct H3 as [_ H3]. cbn. clear -H3.
      induction H3 as [|r l Hr H IH]; constructor; [split; [apply qualified_same, Hr|reflexivity]|exact IH].
Qed.

Theorem read_back n b0 : (base = None -> b0 = None) -> exists i,
  print qualify type_iri lit_prints print_values sc = Some i
  /\ (length i + 2 <= n -> exists s',
        read expand rebase type_iri deref_values deref_lit n b0 i = Read s' /\ same_schema type_iri expand pm sc s').
Proof.
  intros Hb. destruct whole as (d & E & T & S & P & C). exists (lay false d). split; [unfold print; rewrite E; reflexivity|].
  intros Hn. rewrite <- (lay_toks d false) in T. destruct (respell (lay false d) (doc_toks document) T) as (j & Ej & Rj).
  assert (L : length j = length (lay false d)).
  { clear -Rj. unfold R in Rj. induction Rj; cbn; congruence. }
  unfold read. rewrite <- (parse_R n j _ Rj).
  rewrite (documents_read document j n (document_syntax S) P C Ej) by lia.
  destruct (schema_built b0 Hb) as (s' & E' & Hs). rewrite E'. exists s'. auto.
Qed.
End Schemas.
