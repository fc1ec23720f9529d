(* The functions on texts of the JSON reader, against the specification. *)

From Coq Require Import List String Ascii NArith ZArith Bool Lia.
From Coq Require Import Decimal DecimalString DecimalFacts DecimalZ DecimalPos.
From Verif Require Import SjModel SjSpec.
Import ListNotations.
Open Scope string_scope.

Local Arguments has : simpl never.

Lemma has_cons c d s : has c (String d s) <-> d = c \/ has c s.
Proof. reflexivity. Qed.

Lemma has_app c a b : has c (a ++ b) <-> has c a \/ has c b.
Proof.
  induction a as [|d a IH]; cbn.
  - split; [now right|now intros [[]|H]].
  - unfold has in *. cbn. rewrite IH. tauto.
Qed.

Lemma sapp_assoc (a b c : string) : (a ++ b) ++ c = a ++ (b ++ c).
Proof. induction a as [|d a IH]; cbn; [|rewrite IH]; reflexivity. Qed.

Lemma plain_spec s : plain s = true <-> unescaped s.
Proof.
  induction s as [|c s IH]; cbn.
  - split; [intros _ c []|reflexivity].
  - rewrite andb_true_iff, IH, negb_true_iff. unfold escaped.
    rewrite !orb_false_iff, N.ltb_ge, !Ascii.eqb_neq. unfold unescaped. split.
    + intros [[[H1 H2] H3] H] d [<-|Hd]; auto.
    + intros H. split; [|intros d Hd; apply H; now right].
      destruct (H c) as (H1 & H2 & H3); [now left|auto].
Qed.

Lemma split_none s : split_colon s = None <-> ~ has ":" s.
Proof.
  induction s as [|c s IH]; cbn.
  - split; [intros _ []|reflexivity].
  - destruct (Ascii.eqb_spec c ":") as [->|Hc].
    + split; [discriminate|intros H; exfalso; apply H; now left].
    + rewrite has_cons. destruct (split_colon s) as [[p l]|].
      * split; [discriminate|]. intros H. exfalso.
        assert (~ has ":" s) as Hs by tauto. apply IH in Hs. discriminate.
      * split; [intros _ [H|H]; [tauto|]; now apply IH in H|reflexivity].
Qed.

Lemma split_some s p l :
  split_colon s = Some (p, l) <-> s = p ++ ":" ++ l /\ ~ has ":" p.
Proof.
  revert p; induction s as [|c s IH]; intros p; cbn.
  - split; [discriminate|]. intros [H _]. destruct p; discriminate.
  - destruct (Ascii.eqb_spec c ":") as [->|Hc].
    + split.
      * intros H. injection H as <- <-. split; [reflexivity|intros []].
      * intros [H Hp]. destruct p as [|d p]; cbn in H; injection H.
        -- intros ->. reflexivity.
        -- intros _ <-. exfalso. apply Hp. now left.
    + destruct (split_colon s) as [[q m]|] eqn:E.
      * split.
        -- intros H. injection H as <- <-. destruct (proj1 (IH q) eq_refl) as [-> Hq].
           split; [reflexivity|]. rewrite has_cons. tauto.
        -- intros [H Hp]. destruct p as [|d p]; cbn in H; injection H; intros Hs Hd; subst.
           ++ tauto.
           ++ assert (Some (q, m) = Some (p, l)) as Hq; [|injection Hq as -> ->; reflexivity].
              apply IH. split; [reflexivity|]. rewrite has_cons in Hp. tauto.
      * split; [discriminate|]. intros [H Hp].
        destruct p as [|d p]; cbn in H; injection H; intros Hs Hd; subst; [tauto|].
        exfalso. assert (None = Some (p, l)) as Hq; [|discriminate].
        apply IH. split; [reflexivity|]. rewrite has_cons in Hp. tauto.
Qed.

(* ------------------------------------------------------------------ *)
(* Lines                                                                *)

Lemma to_eol_spec s : exists r, s = to_eol s ++ r /\ ~ has newline (to_eol s).
Proof.
  induction s as [|c s (r & IH & Hn)].
  - exists "". split; [reflexivity|intros []].
  - cbn [to_eol]. destruct (Ascii.eqb_spec c "010") as [->|Hc].
    + exists (String "010" s). split; [reflexivity|intros []].
    + exists r. split; [cbn; congruence|]. rewrite has_cons. unfold newline in *. tauto.
Qed.

Lemma to_eol_id s : ~ has newline s -> to_eol s = s.
Proof.
  induction s as [|c s IH]; intros H; [reflexivity|]. cbn.
  rewrite has_cons in H. unfold newline in H.
  destruct (Ascii.eqb_spec c "010") as [->|Hc]; [tauto|]. f_equal. apply IH. tauto.
Qed.

Lemma to_eol_same s : to_eol s = s -> ~ has newline s.
Proof. intros H. destruct (to_eol_spec s) as (r & _ & Hn). now rewrite H in Hn. Qed.

Lemma to_eol_has c s : has c (to_eol s) -> has c s.
Proof.
  intros H. destruct (to_eol_spec s) as (r & E & _). rewrite E. apply has_app. now left.
Qed.

Lemma to_eol_app a b : ~ has newline a -> to_eol (a ++ b) = a ++ to_eol b.
Proof.
  induction a as [|c a IH]; intros H; [reflexivity|]. cbn.
  rewrite has_cons in H. unfold newline in H.
  destruct (Ascii.eqb_spec c "010") as [->|Hc]; [tauto|]. f_equal. apply IH. tauto.
Qed.

Lemma before_gt_none s : before_gt s = None <-> ~ has ">" s.
Proof.
  induction s as [|c s IH]; cbn.
  - split; [intros _ []|reflexivity].
  - rewrite has_cons. destruct (before_gt s) as [t|].
    + split; [discriminate|]. intros H. exfalso.
      assert (~ has ">" s) as Hs by tauto. apply IH in Hs. discriminate.
    + assert (~ has ">" s) as Hs by now apply IH.
      destruct (Ascii.eqb_spec c ">") as [->|Hc]; split; try discriminate; tauto.
Qed.

Lemma before_gt_some s t : before_gt s = Some t -> exists r, s = t ++ ">" ++ r.
Proof.
  revert t; induction s as [|c s IH]; intros t; cbn; [discriminate|].
  destruct (before_gt s) as [u|].
  - intros H. injection H as <-. destruct (IH u eq_refl) as (r & ->). now exists r.
  - destruct (Ascii.eqb_spec c ">") as [->|Hc]; [|discriminate].
    intros H. injection H as <-. now exists s.
Qed.

Lemma angle_none s : angle s = None <-> ~ angled s.
Proof.
  split.
  - induction s as [|c s IH]; cbn [angle].
    + intros _ (a & b & d & H & _). destruct a; discriminate.
    + intros Ha (a & b & d & H & Hb). destruct a as [|x a].
      * cbn in H. injection H as -> ->. rewrite Ascii.eqb_refl in Ha.
        destruct (before_gt (to_eol (b ++ String ">" d))) eqn:E; [discriminate|].
        apply before_gt_none in E. rewrite to_eol_app in E by exact Hb.
        apply E. apply has_app. right. cbn. now left.
      * injection H as -> ->.
        assert (angle (a ++ "<" ++ b ++ ">" ++ d) = None) as Hn.
        { destruct (Ascii.eqb x "<"); [|exact Ha]. cbn [append] in Ha |- *.
          destruct (before_gt _); [discriminate|exact Ha]. }
        apply IH in Hn. apply Hn. exists a, b, d. auto.
  - induction s as [|c s IH]; cbn [angle]; [reflexivity|]. intros H.
    assert (~ angled s) as Hs.
    { intros (a & b & d & -> & Hb). apply H. exists (String c a), b, d. auto. }
    destruct (Ascii.eqb_spec c "<") as [->|Hc]; [|auto].
    destruct (before_gt (to_eol s)) as [t|] eqn:E; [|auto].
    exfalso. apply H. apply before_gt_some in E as (r & E).
    destruct (to_eol_spec s) as (q & Es & Hn). rewrite E in Es, Hn.
    exists "", t, (r ++ q). split.
    + cbn. rewrite Es at 1. rewrite sapp_assoc. cbn. reflexivity.
    + intros Ht. apply Hn. apply has_app. now left.
Qed.

(* What is captured is shorter than the text. *)
Lemma before_gt_length s t : before_gt s = Some t -> String.length t < String.length s.
Proof.
  revert t; induction s as [|c s IH]; intros t; cbn; [discriminate|].
  destruct (before_gt s) as [u|].
  - intros H. injection H as <-. cbn. specialize (IH u eq_refl). lia.
  - destruct (Ascii.eqb c ">"); [|discriminate]. intros H. injection H as <-. cbn. lia.
Qed.

Lemma to_eol_length s : String.length (to_eol s) <= String.length s.
Proof. induction s as [|c s IH]; cbn; [lia|]. destruct (Ascii.eqb c "010"); cbn; lia. Qed.

Lemma angle_length s t : angle s = Some t -> String.length t < String.length s.
Proof.
  revert t; induction s as [|c s IH]; intros t; cbn [angle]; [discriminate|].
  destruct (Ascii.eqb c "<").
  - destruct (before_gt (to_eol s)) as [u|] eqn:E.
    + intros H. injection H as <-. apply before_gt_length in E.
      pose proof (to_eol_length s). cbn. lia.
    + intros H. apply IH in H. cbn. lia.
  - intros H. apply IH in H. cbn. lia.
Qed.

Lemma blank_tail x q : blank (String x q) = None -> blank q = None.
Proof.
  cbn [blank]. destruct (Ascii.eqb x "_"); [|auto]. destruct q as [|d r]; [auto|].
  destruct (Ascii.eqb d ":"); [discriminate|auto].
Qed.

Lemma blank_none s : blank s = None <-> ~ blanked s.
Proof.
  split.
  - induction s as [|c s IH].
    + intros _ (a & b & H). destruct a; discriminate.
    + intros Ha (a & b & H). destruct a as [|x a].
      * cbn in H. injection H as -> ->. discriminate.
      * injection H as -> ->.
        assert (blank (a ++ "_:" ++ b) = None) as Hn by exact (blank_tail x _ Ha).
        apply IH in Hn. apply Hn. now exists a, b.
  - induction s as [|c s IH]; cbn [blank]; [reflexivity|]. intros H.
    assert (~ blanked s) as Hs.
    { intros (a & b & ->). apply H. now exists (String c a), b. }
    destruct (Ascii.eqb_spec c "_") as [->|Hc]; [|auto].
    destruct s as [|d r]; [reflexivity|].
    destruct (Ascii.eqb_spec d ":") as [->|Hd]; [|auto].
    exfalso. apply H. now exists "", r.
Qed.

Lemma blank_here b : blank ("_:" ++ b) = Some (to_eol b).
Proof. reflexivity. Qed.

Lemma angle_here b : angle ("_:" ++ b) = angle b.
Proof. reflexivity. Qed.

(* ------------------------------------------------------------------ *)
(* Integers                                                             *)

Lemma to_int_ok z : Z.to_int z <> Pos Nil /\ Z.to_int z <> Neg Nil.
Proof.
  destruct z as [|p|p]; cbn; split; try discriminate; intros H; injection H as H.
  - now apply DecimalPos.Unsigned.to_uint_nonnil in H.
  - now apply DecimalPos.Unsigned.to_uint_nonnil in H.
Qed.

Lemma int_text z : NilZero.int_of_string (show_int z) = Some (Z.to_int z).
Proof.
  unfold show_int. destruct (to_int_ok z). now apply NilZero.isi.
Qed.

Lemma show_int_no_plus z : forall r, show_int z <> String "+" r.
Proof.
  intros r H. pose proof (int_text z) as E. rewrite H in E. cbn in E.
  destruct (NilEmpty.uint_of_string r); cbn in E; discriminate E.
Qed.

Lemma parse_show_int z :
  parse_int (show_int z) = if ((- 2 ^ 63 <=? z) && (z <? 2 ^ 63))%Z then Some z else None.
Proof.
  unfold parse_int.
  assert (forall s : string, (forall r, s <> String "+" r) ->
    match s with String "+" (String c r) =>
      if Ascii.eqb c "-" then "" else String c r | _ => s end = s) as Hs.
  { intros [|[[] [] [] [] [] [] [] []] s]; try reflexivity. intros H.
    destruct s; [reflexivity|]. exfalso. now apply (H (String a s)). }
  rewrite (Hs _ (show_int_no_plus z)), int_text, DecimalZ.of_to. reflexivity.
Qed.
