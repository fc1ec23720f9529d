(** Property identifiers generated from placeholders. *)
From Coq Require Import String List Arith Bool Lia Decimal DecimalNat.
Import ListNotations.
From Verif Require Import CompModel TapModel TapSpec TapLemmas TapFinal.

Fixpoint next (v : str) (ids : list (str * nat)) : nat :=
  match ids with [] => 0 | (w, k) :: r => if str_eqb v w then S k else next v r end.
Lemma str_eqb_refl s : str_eqb s s = true.
Proof. apply str_eqb_eq. reflexivity. Qed.
Lemma placeholder_next v ids : fst (placeholder_id v ids) = next v ids /\ next v (snd (placeholder_id v ids)) = S (next v ids).
Proof.
  induction ids as [|[w k] r [IH1 IH2]]; cbn.
  - rewrite str_eqb_refl. split; reflexivity.
  - destruct (str_eqb v w) eqn:E; cbn.
    + rewrite E. split; reflexivity.
    + destruct (placeholder_id v r) as [i r']. cbn in *. rewrite E. split; assumption.
Qed.
Lemma uint_str_inj a b : uint_str a = uint_str b -> a = b.
Proof. revert b. induction a; intros [] H; cbn in H; try discriminate H; try reflexivity; injection H as H; f_equal; apply IHa, H. Qed.

Section Generated.
  Variable d : nat.
  Variable ph : list (str * str).
  Variable em : option str.
  Variable hr : row.
  Variable c stem : str.
  Hypothesis c_filled : c <> [].
  Hypothesis c_known : assoc c ph = Some stem.
  Notation h := (from_record hr).
  Definition gen (k : nat) : str := stem ++ uint_str (Nat.to_uint k).
  Lemma gen_inj j k : gen j = gen k -> j = k.
  Proof. unfold gen. intro H. apply app_inv_head in H. apply uint_str_inj in H. apply Unsigned.to_uint_inj, H. Qed.

  Definition held (r : row) : Prop := entry hr "PROPERTYID" r (Some c).
  Definition props (s : tapshape) : list str := map s_property (t_statements s).

  Lemma add_row_gen r s ids s' ids' : held r -> add_row d ph em h r s ids = Ok (s', ids') ->
    props s' = props s ++ [gen (next (trim c) ids)] /\ next (trim c) ids' = S (next (trim c) ids).
  Proof.
    intro H. unfold held in H. apply entry_iff in H. unfold add_row, record2statement, get_property_id. change (h_property h) with (column (lit "PROPERTYID") 0 None hr). rewrite H.
    destruct (is_nil c) eqn:E; [apply is_nil_true in E; contradiction|]. rewrite c_known. unfold generate.
    destruct (placeholder_next (trim c) ids) as [N1 N2]. destruct (placeholder_id (trim c) ids) as [k ids1]. cbn in N1, N2. subst k.
    destruct (read_bool (h_mandatory h) r) as [m| |]; cbn [bind]; try discriminate.
    destruct (read_bool (h_repeatable h) r) as [rp| |]; cbn [bind]; try discriminate.
    destruct (read_nodetype h r) as [nt| |]; cbn [bind]; try discriminate.
    intros [= <- <-]. unfold props. cbn. rewrite map_app. split; [reflexivity|exact N2].
  Qed.
  Lemma more_rows_gen id rows : Forall held rows -> forall s ids w rest s' ids', more_rows d ph em h id rows s ids = Ok (w, rest, s', ids') ->
    exists n, props s' = props s ++ map gen (seq (next (trim c) ids) n) /\ next (trim c) ids' = next (trim c) ids + n /\ (exists t, rows = t ++ waiting w ++ rest).
  Proof.
    induction 1 as [|r rows Hr F IH]; intros s ids w rest s' ids'; cbn [more_rows].
    - intros [= <- <- <- <-]. exists 0. cbn. rewrite app_nil_r. repeat split; [lia|]. exists []. reflexivity.
    - destruct (same_shape_id id (get_shape_id h r)).
      + destruct (add_row d ph em h r s ids) as [[s1 ids1]| |] eqn:EA; cbn [bind]; try discriminate. intro H.
        destruct (add_row_gen _ _ _ _ _ Hr EA) as [P1 P2]. apply IH in H as (n & Q1 & Q2 & t & ->).
        exists (S n). rewrite Q1, P1, P2, Q2, P2, <- app_assoc. cbn. repeat split; [lia|]. exists (r :: t). reflexivity.
      + intros [= <- <- <- <-]. exists 0. cbn. rewrite app_nil_r. repeat split; [lia|]. exists []. reflexivity.
  Qed.
  Lemma new_shape_props r s : has_id hr r -> props (new_shape h r s) = [].
  Proof.
    intros [i H]. apply shape_id_iff in H. unfold new_shape. rewrite H.
    unfold add_extends_id, add_extends_label, reset_extends, set_shape_id, set_shape_label.
    destruct (cell (h_shape_label h) r); (destruct (cell (h_extends h) r) as [e|]; [destruct (strip_whitespace e)|]);
      (destruct (cell (h_extends_label h) r) as [el|]; [destruct (is_nil el)|]); reflexivity.
  Qed.
  Lemma read_shapes_gen fuel : forall st shapes, Forall held (waiting (r_cached st) ++ r_rows st) -> Forall (has_id hr) (waiting (r_cached st) ++ r_rows st) ->
    read_shapes d ph em h fuel st = Ok shapes -> exists n, flat_map props shapes = map gen (seq (next (trim c) (r_ids st)) n).
  Proof.
    induction fuel as [|f IH]; intros st shapes F I; cbn [read_shapes]; [discriminate|]. unfold read_shape. rewrite first_row_eq.
    pose proof (skip_empty_spec (waiting (r_cached st) ++ r_rows st)) as SK.
    destruct (skip_empty (waiting (r_cached st) ++ r_rows st)) as [[r rows]|].
    - destruct SK as (sk & E & _). rewrite E in F, I. apply Forall_app in F as [_ F]. apply Forall_app in I as [_ I]. inversion F as [|? ? Hr F2]; inversion I as [|? ? Ir I2]; subst.
      destruct (add_row d ph em h r _ _) as [[s1 ids1]| |] eqn:EA; cbn [bind]; try discriminate. destruct (add_row_gen _ _ _ _ _ Hr EA) as [P1 P2]. rewrite (new_shape_props r _ Ir) in P1.
      destruct (more_rows d ph em h _ rows s1 ids1) as [[[[w rest] s2] ids2]| |] eqn:EM; cbn [bind]; try discriminate.
      destruct (more_rows_gen _ _ F2 _ _ _ _ _ _ EM) as (n & Q1 & Q2 & t & ->).
      destruct (read_shapes d ph em h f (mkRstate w rest s2 ids2)) as [l| |] eqn:ER; cbn [bind]; try discriminate. intros [= <-].
      apply Forall_app in F2 as [_ F2]. apply Forall_app in I2 as [_ I2].
      apply IH in ER as (m & R); [|exact F2|exact I2]. cbn [r_ids] in R. exists (1 + n + m). cbn [flat_map r_shape]. rewrite R, Q1, P1, Q2, P2.
      cbn. rewrite seq_app, map_app. reflexivity.
    - cbn. intros [= <-]. exists 0. reflexivity.
  Qed.
End Generated.
