(** The shapes read are the shapes described, for whole tables. *)
From Coq Require Import String List Arith Bool Lia.
Import ListNotations.
From Verif Require Import CompModel TapModel TapSpec TapLemmas.

Lemma blank_row_iff r : is_empty_record r = true <-> blank_row r.
Proof.
  unfold is_empty_record, blank_row. rewrite forallb_forall, Forall_forall. split; intros H c I; specialize (H c I).
  - apply is_nil_true in H. apply blank_iff, H.
  - apply is_nil_true, blank_iff, H.
Qed.
Lemma skip_empty_app sk r rest : Forall blank_row sk -> ~ blank_row r -> skip_empty (sk ++ r :: rest) = Some (r, rest).
Proof.
  intros F N. induction F as [|x sk Hx F IH]; cbn [skip_empty app].
  - destruct (is_empty_record r) eqn:E; [|reflexivity]. exfalso. apply N, blank_row_iff, E.
  - apply blank_row_iff in Hx. rewrite Hx. exact IH.
Qed.
Lemma skip_empty_all l : Forall blank_row l -> skip_empty l = None.
Proof. induction 1 as [|x l Hx F IH]; cbn; [reflexivity|]. apply blank_row_iff in Hx. rewrite Hx. exact IH. Qed.
Lemma skip_empty_spec l : match skip_empty l with
  | None => Forall blank_row l
  | Some (r, rest) => exists sk, l = sk ++ r :: rest /\ Forall blank_row sk /\ ~ blank_row r
  end.
Proof.
  induction l as [|x l IH]; cbn [skip_empty]; [constructor|]. destruct (is_empty_record x) eqn:E.
  - apply blank_row_iff in E. destruct (skip_empty l) as [[r rest]|].
    + destruct IH as (sk & -> & F & N). exists (x :: sk). split; [reflexivity|]. split; [constructor; assumption|exact N].
    + constructor; assumption.
  - exists []. split; [reflexivity|]. split; [constructor|]. intro B. apply blank_row_iff in B. congruence.
Qed.
Lemma first_row_eq st : first_row st = skip_empty (waiting (r_cached st) ++ r_rows st).
Proof. unfold first_row. destruct (r_cached st) as [r|]; [|reflexivity]. cbn. reflexivity. Qed.

Section Table.
  Variable hr : row.
  Variable d : nat.
  Notation h := (from_record hr).

  Definition full (r : row) : Prop := length hr <= length r.
  Definition fine (r : row) : Prop := good_row hr r /\ has_id hr r /\ full r.
  Definition unlabelled (s : tapshape) : Prop := h_shape_label h = None -> t_label s = None.

  Lemma id_unique r i j : id_of hr r i -> id_of hr r j -> i = j.
  Proof. intros H H'. apply shape_id_iff in H, H'. rewrite H in H'. injection H'. trivial. Qed.
  Lemma named_row r k : id_of hr r k -> k <> [] -> ~ blank_row r.
  Proof.
    intros (c & E & H) N B. destruct E as (i & _ & E). apply N. apply stripped_iff in H as <-. apply blank_iff.
    unfold blank_row in B. rewrite Forall_forall in B. apply B. exact (nth_error_In _ _ E).
  Qed.
  Lemma heads_lt name i : heads hr name i -> i < length hr.
  Proof. intros ((c & E & _) & _). apply nth_error_Some. congruence. Qed.
  Lemma label_cell r s : full r -> unlabelled s ->
    match cell (h_shape_label h) r with Some l => Some (trim l) | None => t_label s end = match cell (h_shape_label h) r with Some l => Some (trim l) | None => None end.
  Proof.
    intros F U. unfold cell, unlabelled in *. destruct (h_shape_label h) as [j|] eqn:E; [|exact (U eq_refl)].
    destruct (nth_error r j) eqn:Er; [reflexivity|]. exfalso. apply nth_error_None in Er. apply column_iff in E. apply heads_lt in E. unfold full in F. lia.
  Qed.

  Definition shape_label (r : row) : option str := option_map trim (cell (h_shape_label h) r).
  Definition note_of (o : option str) : option str := match o with Some s => if is_nil s then None else Some s | None => None end.
  Definition parents (r : row) : list (str * option str) :=
    match match cell (h_extends h) r with Some e => strip_whitespace e | None => None end with
    | Some e => [(e, note_of (cell (h_extends_label h) r))]
    | None => []
    end.
  Lemma new_shape_eq r i s : id_of hr r i -> full r -> unlabelled s -> new_shape h r s = mkTapshape (Some i) (shape_label r) [] (parents r).
  Proof.
    intros H F U. apply shape_id_iff in H. pose proof (label_cell r s F U) as L.
    unfold new_shape. rewrite H. unfold shape_label, parents, note_of.
    destruct (cell (h_shape_label h) r) as [l|]; cbn [option_map];
    (destruct (cell (h_extends h) r) as [e|]; [destruct (strip_whitespace e) as [e'|]|]);
    (destruct (cell (h_extends_label h) r) as [el|]; [destruct (is_nil el)|]); unfold add_extends_id, add_extends_label, reset_extends, set_shape_id, set_shape_label; cbn; rewrite ?L; reflexivity.
  Qed.
  Lemma describes_iff i r rest s : id_of hr r i ->
    (describes hr d (i, r :: rest) s <-> exists os, Forall2 (states hr d) (r :: rest) os /\
       s = with_statements (mkTapshape (Some i) (shape_label r) [] (parents r)) (somes os)).
  Proof.
    intro H. unfold describes. cbn [fst snd]. split.
    - intros (E1 & (r1 & rest1 & o & [= <- <-] & EL & E2) & (r2 & rest2 & oe & ol & e & l & [= <- <-] & EE & EN & Te & Tl & E3) & (os & F & E4)).
      exists os. split; [exact F|]. unfold with_statements. cbn. destruct s as [si sl ss se]. cbn in *. subst si ss se. apply entry_iff in EL, EE, EN. f_equal.
      + unfold shape_label. cbn [h_shape_label from_record]. rewrite EL. destruct o as [c|]; [|exact E2]. destruct E2 as (t & St & ->). apply stripped_iff in St as <-. reflexivity.
      + unfold parents. cbn [h_extends h_extends_label from_record]. rewrite EE, EN. apply strip_text in Te. rewrite Te. apply note_iff in Tl.
        change (note_of ol = l) in Tl. rewrite Tl. reflexivity.
    - intros (os & F & ->). cbn. split; [reflexivity|]. split; [|split].
      + exists r, rest, (cell (h_shape_label h) r). split; [reflexivity|]. split; [apply entry_iff; reflexivity|].
        unfold shape_label. destruct (cell (h_shape_label h) r) as [c|]; [|reflexivity]. exists (trim c). split; [apply stripped_trim|reflexivity].
      + exists r, rest, (cell (h_extends h) r), (cell (h_extends_label h) r). eexists. exists (note_of (cell (h_extends_label h) r)).
        split; [reflexivity|]. split; [apply entry_iff; reflexivity|]. split; [apply entry_iff; reflexivity|]. split; [apply strip_text; reflexivity|].
        split; [apply note_iff; reflexivity|]. reflexivity.
      + exists os. split; [exact F|reflexivity].
  Qed.

  Lemma read_shape_iff st st' : Forall fine (waiting (r_cached st) ++ r_rows st) -> unlabelled (r_shape st) ->
    (read_shape d [] None h st = Ok (Some st') <->
     exists sk i r taken, waiting (r_cached st) ++ r_rows st = sk ++ (r :: taken) ++ waiting (r_cached st') ++ r_rows st' /\
       Forall blank_row sk /\ ~ blank_row r /\ id_of hr r i /\ describes hr d (i, r :: taken) (r_shape st') /\
       Forall (fun x => exists j, id_of hr x j /\ (j = [] \/ j = i)) taken /\
       (r_cached st' = None -> r_rows st' = []) /\
       (forall x, r_cached st' = Some x -> exists k, id_of hr x k /\ k <> [] /\ k <> i) /\ r_ids st' = r_ids st).
  Proof.
    intros F U. unfold read_shape. rewrite first_row_eq. set (pend := waiting (r_cached st) ++ r_rows st) in *. split.
    - pose proof (skip_empty_spec pend) as SK. destruct (skip_empty pend) as [[r rows]|]; [|discriminate].
      destruct SK as (sk & E & Fs & Nr). rewrite E in F. apply Forall_app in F as [_ F]. inversion F as [|? ? (Gr & [i Hi] & Fr) F2]; subst.
      assert (Gs : Forall (good_row hr) rows) by (eapply Forall_impl; [|exact F2]; intros ? H; apply H).
      assert (Is : Forall (has_id hr) rows) by (eapply Forall_impl; [|exact F2]; intros ? H; apply H).
      rewrite (new_shape_eq r i _ Hi Fr U).
      destruct (add_row d [] None h r _ _) as [[s1 ids1]| |] eqn:EA; cbn [bind]; try discriminate.
      apply (add_row_iff hr d r _ _ _ _ Gr) in EA as (o & So & -> & ->).
      pose proof Hi as Hi'. apply shape_id_iff in Hi'. rewrite Hi'.
      destruct (more_rows d [] None h (Some i) rows _ _) as [[[[c rest] s2] ids2]| |] eqn:EM; cbn [bind]; try discriminate.
      apply (more_rows_iff hr d i rows Gs Is) in EM as (taken & os & -> & N & FT & FC & Fo & -> & ->).
      intros [= <-]. cbn [r_cached r_rows r_shape r_ids].
      exists sk, i, r, taken. split; [rewrite E; reflexivity|]. split; [exact Fs|]. split; [exact Nr|]. split; [exact Hi|]. split.
      { apply (describes_iff i r taken _ Hi). exists (o :: os). split; [constructor; assumption|]. rewrite with_with. f_equal. unfold somes. cbn. rewrite app_nil_r. reflexivity. }
      split; [exact FT|]. split; [exact N|]. split; [exact FC|reflexivity].
    - intros (sk & i & r & taken & E & Fs & Nr & Hi & D & FT & N & FC & EI).
      rewrite E in *. cbn [app]. rewrite (skip_empty_app sk r _ Fs Nr).
      apply Forall_app in F as [_ F]. inversion F as [|? ? (Gr & _ & Fr) F2]; subst.
      assert (Gs : Forall (good_row hr) (taken ++ waiting (r_cached st') ++ r_rows st')) by (eapply Forall_impl; [|exact F2]; intros ? H; apply H).
      assert (Is : Forall (has_id hr) (taken ++ waiting (r_cached st') ++ r_rows st')) by (eapply Forall_impl; [|exact F2]; intros ? H; apply H).
      apply (describes_iff i r taken _ Hi) in D as (os & Fo & ES). inversion Fo as [|? o ? os' So Fos]; subst.
      rewrite (new_shape_eq r i _ Hi Fr U).
      assert (EA : add_row d [] None h r (mkTapshape (Some i) (shape_label r) [] (parents r)) (r_ids st) =
        Ok (with_statements (mkTapshape (Some i) (shape_label r) [] (parents r)) (somes [o]), r_ids st)) by (apply (add_row_iff hr d r _ _ _ _ Gr); eauto).
      rewrite EA. cbn [bind]. pose proof Hi as Hi'. apply shape_id_iff in Hi'. rewrite Hi'.
      assert (EM : more_rows d [] None h (Some i) (taken ++ waiting (r_cached st') ++ r_rows st')
        (with_statements (mkTapshape (Some i) (shape_label r) [] (parents r)) (somes [o])) (r_ids st) = Ok (r_cached st', r_rows st', r_shape st', r_ids st)).
      { apply (more_rows_iff hr d i _ Gs Is). exists taken, os'. split; [reflexivity|]. split; [exact N|]. split; [exact FT|]. split; [exact FC|]. split; [exact Fos|].
        split; [|reflexivity]. rewrite ES, with_with. f_equal. unfold somes. cbn. rewrite app_nil_r. reflexivity. }
      rewrite EM. cbn [bind]. do 2 f_equal. destruct st'; cbn in *; congruence.
  Qed.

  Lemma described_next pend shapes k r : hd_error pend = Some r -> id_of hr r k -> k <> [] -> described hr d pend shapes ->
    exists g gs, pend = concat (map snd ((k, r :: g) :: gs)) /\ runs hr ((k, r :: g) :: gs) /\ Forall2 (describes hr d) ((k, r :: g) :: gs) shapes.
  Proof.
    intros E Hk Nk (sk & gs & -> & Fs & _ & R & D).
    destruct sk as [|x sk]; [|cbn in E; injection E as ->; inversion Fs; exfalso; eapply named_row; eassumption].
    destruct R as [|i x rest gs Hi Fr N R]; [discriminate|]. cbn in E. injection E as ->.
    pose proof (id_unique _ _ _ Hk Hi) as ->. exists rest, gs. split; [reflexivity|]. split; [constructor; assumption|exact D].
  Qed.

  Lemma read_shapes_iff fuel : forall st shapes, length (waiting (r_cached st) ++ r_rows st) < fuel ->
    Forall fine (waiting (r_cached st) ++ r_rows st) -> unlabelled (r_shape st) ->
    (read_shapes d [] None h fuel st = Ok shapes <-> described hr d (waiting (r_cached st) ++ r_rows st) shapes).
  Proof.
    induction fuel as [|f IH]; intros st shapes L F U; [lia|]. cbn [read_shapes].
    pose proof (read_shape_iff st) as RS.
    assert (NX : forall st', read_shape d [] None h st = Ok (Some st') ->
       length (waiting (r_cached st') ++ r_rows st') < f /\ Forall fine (waiting (r_cached st') ++ r_rows st') /\ unlabelled (r_shape st')).
    { intros st' E. apply (RS st' F U) in E as (sk & i & r & taken & E & _ & _ & Hi & D & _). rewrite E in F, L. rewrite !app_length in L. rewrite app_length. cbn in L.
      split; [lia|]. apply Forall_app in F as [_ F]. apply Forall_app in F as [Fr F]. split; [exact F|].
      intro NL. apply (describes_iff i r taken _ Hi) in D as (os & _ & ->). cbn. unfold shape_label, cell. rewrite NL. reflexivity. }
    split.
    - destruct (read_shape d [] None h st) as [[st'|]| |] eqn:E; cbn [bind]; try discriminate.
      + destruct (NX st' eq_refl) as (L' & F' & U'). destruct (read_shapes d [] None h f st') as [shs| |] eqn:ER; cbn [bind]; try discriminate. intros [= <-].
        apply (IH st' shs L' F' U') in ER. destruct (proj1 (RS st' F U) eq_refl) as (sk & i & r & taken & E' & Fs & Nr & Hi & D & FT & N & FC & _). clear E. rename E' into E.
        rewrite E. destruct (r_cached st') as [x|] eqn:Ec.
        * destruct (FC x eq_refl) as (k & Hk & N1 & N2).
          destruct (described_next (waiting (Some x) ++ r_rows st') shs k x eq_refl Hk N1 ER) as (g & gs & E' & R & D').
          exists sk, ((i, r :: taken) :: (k, x :: g) :: gs). split; [rewrite E'; reflexivity|]. split; [exact Fs|]. split.
          { intros i' r' rest' gs' [= <- <- <- <-]. exact Nr. }
          split; [|constructor; assumption]. constructor; [exact Hi|exact FT| |exact R]. intros k' g' gs' [= <- <- <-]. split; assumption.
        * rewrite (N eq_refl) in *. cbn [waiting app] in *. destruct ER as (sk' & gs & E' & _ & _ & R & D').
          destruct R as [|i' x' rest' gs' ? ? ? R]; [|destruct sk'; discriminate]. inversion D'; subst.
          exists sk, [(i, r :: taken)]. split; [cbn; reflexivity|]. split; [exact Fs|]. split.
          { intros i' r' rest' gs' [= <- <- <- <-]. exact Nr. }
          split; [|constructor; [assumption|constructor]]. constructor; [exact Hi|exact FT| |constructor]. discriminate.
      + intros [= <-]. unfold read_shape in E. rewrite first_row_eq in E. pose proof (skip_empty_spec (waiting (r_cached st) ++ r_rows st)) as SK.
        destruct (skip_empty (waiting (r_cached st) ++ r_rows st)) as [[r rows]|].
        { destruct (add_row d [] None h r _ _) as [[? ?]| |]; cbn [bind] in E; try discriminate.
          destruct (more_rows d [] None h _ _ _ _) as [[[[? ?] ?] ?]| |]; cbn [bind] in E; discriminate. }
        exists (waiting (r_cached st) ++ r_rows st), []. cbn. rewrite app_nil_r. split; [reflexivity|]. split; [exact SK|]. split; [discriminate|]. split; constructor.
    - intros (sk & gs & E & Fs & NB & R & D). destruct R as [|i r rest gs Hi FT NK R].
      + inversion D; subst. cbn in E. rewrite app_nil_r in E. unfold read_shape. rewrite first_row_eq, E, (skip_empty_all sk Fs). reflexivity.
      + inversion D as [|? s ? shs Ds Dr]; subst. pose proof (NB _ _ _ _ eq_refl) as Nr. cbn [map snd concat] in E.
        set (c := hd_error (concat (map snd gs))). set (rs := tl (concat (map snd gs))).
        set (st' := mkRstate c rs s (r_ids st)).
        assert (EW : waiting (r_cached st') ++ r_rows st' = concat (map snd gs)).
        { cbn. subst c rs. destruct (concat (map snd gs)); reflexivity. }
        assert (E1 : read_shape d [] None h st = Ok (Some st')).
        { apply (RS st' F U). exists sk, i, r, rest. rewrite EW. split; [exact E|]. split; [exact Fs|]. split; [exact Nr|]. split; [exact Hi|]. split; [exact Ds|].
          split; [exact FT|]. split; [|split; [|reflexivity]].
          - cbn. subst c rs. destruct (concat (map snd gs)); [reflexivity|discriminate].
          - cbn. subst c. destruct R as [|k x g gs Hk _ _ _]; [discriminate|]. cbn. intros ? [= <-]. destruct (NK k _ _ eq_refl). exists k. repeat split; assumption. }
        rewrite E1. cbn [bind]. destruct (NX st' E1) as (L' & F' & U').
        assert (E2 : read_shapes d [] None h f st' = Ok shs).
        { apply (IH st' shs L' F' U'). rewrite EW. exists [], gs. split; [reflexivity|]. split; [constructor|]. split; [|split; assumption].
          intros k x g gs' ->. destruct (NK k _ _ eq_refl). inversion R; subst. eapply named_row; eassumption. }
        rewrite E2. reflexivity.
  Qed.

  (** every run of the reader ends *)
  Lemma more_rows_shorter ph em id rows : forall s ids c rest s' ids',
    more_rows d ph em h id rows s ids = Ok (c, rest, s', ids') -> length (waiting c ++ rest) <= length rows.
  Proof.
    induction rows as [|r rows IH]; intros s ids c rest s' ids'; cbn [more_rows].
    - intros [= <- <- <- <-]. cbn. lia.
    - destruct (same_shape_id id (get_shape_id h r)).
      + destruct (add_row d ph em h r s ids) as [[s1 ids1]| |]; cbn [bind]; try discriminate. intro H. apply IH in H. cbn. lia.
      + intros [= <- <- <- <-]. cbn. lia.
  Qed.
  Lemma record_ends ph em r ids : record2statement d ph em h r ids <> OutOfFuel.
  Proof.
    unfold record2statement. destruct (get_property_id ph em h r ids) as [[p|] ids']; [|discriminate].
    assert (B : forall i, read_bool i r <> OutOfFuel).
    { intro i. unfold read_bool, parse_boolean. destruct (cell i r); [|discriminate]. destruct (existsb _ _); [discriminate|]. destruct (existsb _ _); discriminate. }
    assert (K : read_nodetype h r <> OutOfFuel).
    { unfold read_nodetype. destruct (cell (h_nodetype h) r) as [c|]; [|discriminate]. generalize (@None nodetype) as cur. generalize (get_strs c) as l.
      induction l as [|w l IH]; intro cur; cbn [node_types]; [discriminate|].
      unfold parse_node_type. destruct (existsb _ _); [apply IH|]. destruct (str_eqb _ _); [apply IH|]. destruct (str_eqb _ _); [apply IH|discriminate]. }
    specialize (B (h_mandatory h)) as B1. specialize (B (h_repeatable h)).
    destruct (read_bool (h_mandatory h) r); cbn [bind]; try congruence. destruct (read_bool (h_repeatable h) r); cbn [bind]; try congruence.
    destruct (read_nodetype h r); cbn [bind]; congruence.
  Qed.
  Lemma more_rows_ends ph em id rows : forall s ids, more_rows d ph em h id rows s ids <> OutOfFuel.
  Proof.
    induction rows as [|r rows IH]; intros s ids; cbn [more_rows]; [discriminate|].
    destruct (same_shape_id id (get_shape_id h r)); [|discriminate]. unfold add_row.
    pose proof (record_ends ph em r ids) as N. destruct (record2statement d ph em h r ids) as [[o ids']| |]; cbn [bind]; [apply IH|congruence|congruence].
  Qed.
  Lemma read_shapes_ends ph em fuel : forall st, length (waiting (r_cached st) ++ r_rows st) < fuel -> read_shapes d ph em h fuel st <> OutOfFuel.
  Proof.
    induction fuel as [|f IH]; intros st L; [lia|]. cbn [read_shapes]. unfold read_shape. rewrite first_row_eq.
    pose proof (skip_empty_spec (waiting (r_cached st) ++ r_rows st)) as SK.
    destruct (skip_empty (waiting (r_cached st) ++ r_rows st)) as [[r rows]|]; [|discriminate].
    destruct SK as (sk & E & _). rewrite E, app_length in L. cbn in L. unfold add_row.
    pose proof (record_ends ph em r (r_ids st)) as N. destruct (record2statement d ph em h r (r_ids st)) as [[o ids]| |]; cbn [bind]; [|congruence|congruence].
    set (s1 := match o with Some _ => _ | None => _ end). clearbody s1.
    pose proof (more_rows_ends ph em (get_shape_id h r) rows s1 ids) as N2.
    pose proof (more_rows_shorter ph em (get_shape_id h r) rows s1 ids) as L2.
    destruct (more_rows d ph em h (get_shape_id h r) rows s1 ids) as [[[[c rest] s2] ids2]| |]; cbn [bind]; [|congruence|congruence].
    specialize (L2 _ _ _ _ eq_refl). specialize (IH (mkRstate c rest s2 ids2)). cbn [r_cached r_rows] in IH.
    destruct (read_shapes d ph em h f (mkRstate c rest s2 ids2)); cbn [bind]; try congruence. exfalso. apply IH; [lia|reflexivity].
  Qed.
End Table.
