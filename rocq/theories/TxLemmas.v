(** The names, words and value expressions of application profiles mean the same after conversion. *)
From Coq Require Import List Arith Bool ZArith Lia Permutation.
Import ListNotations.
From Verif Require Import EngineModel EngineSpec CompModel CompSpec TapModel TapSpec TapLemmas TxModel TxSpec MatSpec MatLemmas MatFinal.
From Verif Require PrefixModel PrefixLemmas PrefixSpec.

(** ** loops *)
Lemma map_res_iff {A B} (f : A -> res B) l bs : map_res f l = Ok bs <-> Forall2 (fun a b => f a = Ok b) l bs.
Proof.
  revert bs. induction l as [|a l IH]; intro bs; cbn [map_res].
  - split; [intros [= <-]; constructor|intro H; inversion H; reflexivity].
  - split.
    + destruct (f a) as [b| |] eqn:E; cbn [bind]; try discriminate. destruct (map_res f l) as [bs'| |] eqn:E'; cbn [bind]; try discriminate.
      intros [= <-]. constructor; [exact E|]. apply IH. reflexivity.
    + intro H. inversion H as [|? b ? bs' Hb Hbs]; subst. rewrite Hb. cbn [bind]. apply IH in Hbs. rewrite Hbs. reflexivity.
Qed.
Lemma map_res_ok {A B} (f : A -> res B) l : (forall a, In a l -> exists b, f a = Ok b) <-> exists bs, map_res f l = Ok bs.
Proof.
  induction l as [|a l IH]; cbn [map_res].
  - split; [intros _; eexists; reflexivity|intros _ a []].
  - split.
    + intro H. destruct (H a (or_introl eq_refl)) as (b & Hb). rewrite Hb. cbn [bind]. destruct IH as [IH _]. destruct IH as (bs & E); [intros x I; apply H; right; exact I|].
      rewrite E. eexists. reflexivity.
    + intros (bs & E) x. destruct (f a) as [b| |] eqn:Eb; cbn [bind] in E; try discriminate. destruct (map_res f l) as [bs'| |] eqn:El; cbn [bind] in E; try discriminate.
      intros [<-|I]; [eauto|]. apply IH; [eexists; reflexivity|exact I].
Qed.
Lemma Forall2_in_l {A B} (R : A -> B -> Prop) l l' a : Forall2 R l l' -> In a l -> exists b, In b l' /\ R a b.
Proof. induction 1 as [|x y l l' H F IH]; intros []; [subst; exists y; split; [left; reflexivity|exact H]|]. destruct IH as (b & I & Rb); [assumption|]. exists b. split; [right; exact I|exact Rb]. Qed.
Lemma Forall2_in_r {A B} (R : A -> B -> Prop) l l' b : Forall2 R l l' -> In b l' -> exists a, In a l /\ R a b.
Proof. induction 1 as [|x y l l' H F IH]; intros []; [subst; exists x; split; [left; reflexivity|exact H]|]. destruct IH as (a & I & Ra); [assumption|]. exists a. split; [right; exact I|exact Ra]. Qed.

(** ** names *)
Lemma pstr_eqb_eq a b : PrefixModel.str_eqb a b = true <-> a = b.
Proof. destruct (PrefixLemmas.str_eqb_spec a b); split; congruence. Qed.
Lemma find_namespace m p ns : PrefixModel.find p m = Some ns <-> namespace m p ns.
Proof.
  unfold namespace. split.
  - induction m as [|[q i] m IH]; cbn; [discriminate|]. destruct (PrefixModel.str_eqb p q) eqn:E.
    + intros [= ->]. apply pstr_eqb_eq in E as ->. exists [], m. split; [reflexivity|intros ? []].
    + intro H. destruct (IH H) as (a & b & -> & N). exists ((q, i) :: a), b. split; [reflexivity|]. intros ns' [X|X]; [|exact (N ns' X)].
      injection X as -> ->. assert (PrefixModel.str_eqb p p = true) by (apply pstr_eqb_eq; reflexivity). congruence.
  - intros (a & b & -> & N). induction a as [|[q i] a IH]; cbn.
    + assert (E : PrefixModel.str_eqb p p = true) by (apply pstr_eqb_eq; reflexivity). rewrite E. reflexivity.
    + destruct (PrefixModel.str_eqb p q) eqn:E; [exfalso; apply pstr_eqb_eq in E as ->; apply (N i); left; reflexivity|].
      apply IH. intros ns' X. apply (N ns'). right. exact X.
Qed.
Lemma terminated_iff ns : terminated ns <-> PrefixModel.ends_with PrefixModel.slash ns || PrefixModel.ends_with PrefixModel.hash_sign ns = true.
Proof.
  rewrite orb_true_iff, !PrefixLemmas.ends_with_spec. unfold terminated, PrefixModel.slash, PrefixModel.hash_sign. split.
  - intros (x & c & -> & [->| ->]); [left|right]; exists x; reflexivity.
  - intros [(x & ->)|(x & ->)]; [exists x, 47|exists x, 35]; auto.
Qed.
Lemma extend_iff is_iri ns l i : PrefixModel.extend is_iri ns l = Some i <-> joined (fun x => is_iri x = true) ns l i.
Proof.
  unfold PrefixModel.extend, joined. rewrite terminated_iff. destruct (_ || _).
  - destruct (is_iri (ns ++ l)) eqn:E; split.
    + intros [= <-]. repeat split; [exact E|congruence].
    + intros (_ & H & _). rewrite (H eq_refl). reflexivity.
    + discriminate.
    + intros (H1 & H & _). rewrite (H eq_refl) in H1. congruence.
  - destruct (is_iri (ns ++ PrefixModel.slash :: l)) eqn:E; split.
    + intros [= <-]. repeat split; [exact E|discriminate].
    + intros (_ & _ & H). rewrite H by discriminate. reflexivity.
    + discriminate.
    + intros (H1 & _ & H). rewrite H in H1 by discriminate. unfold PrefixModel.slash in E. congruence.
Qed.
Lemma rsplit_iff s p l : PrefixModel.rsplit_once s = Some (p, l) <-> s = p ++ 58 :: l /\ ~ In 58 l.
Proof.
  split; [|intros [-> N]; exact (PrefixLemmas.rsplit_last p l N)].
  revert p l. induction s as [|c s IH]; intros p l; cbn; [discriminate|].
  destruct (PrefixModel.rsplit_once s) as [[a b]|] eqn:E.
  - intros [= <- <-]. destruct (IH a b eq_refl) as [-> N]. split; [reflexivity|exact N].
  - destruct (Nat.eqb_spec c PrefixModel.colon) as [->|N]; [|discriminate]. intros [= <- <-]. split; [reflexivity|]. apply PrefixLemmas.rsplit_None, E.
Qed.
Lemma last_colon p l p' l' : p ++ 58 :: l = p' ++ 58 :: l' -> ~ In 58 l -> ~ In 58 l' -> p = p' /\ l = l'.
Proof.
  intros E N N'. pose proof (proj2 (rsplit_iff _ p l) (conj eq_refl N)) as H. pose proof (proj2 (rsplit_iff _ p' l') (conj eq_refl N')) as H'.
  rewrite E in H. rewrite H in H'. injection H' as -> ->. split; reflexivity.
Qed.

Section Names.
  Variable is_iri : str -> bool.
  Variable pm : list (str * str).
  Variable base : option str.
  Notation iriP := (fun x => is_iri x = true).
  Lemma relative_iff s i : relative is_iri base s = Ok i <-> exists b, base = Some b /\ joined iriP b s i.
  Proof.
    unfold relative. destruct base as [b|].
    - unfold opt. split.
      + destruct (PrefixModel.extend is_iri b s) as [j|] eqn:E; [|discriminate]. intros [= <-]. exists b. split; [reflexivity|apply extend_iff, E].
      + intros (b' & [= <-] & J). apply extend_iff in J. rewrite J. reflexivity.
    - split; [discriminate|]. intros (b & [=] & _).
  Qed.
  Theorem resolve_iff s i : resolve_iri is_iri pm base s = Ok i <-> names iriP pm base s i.
  Proof.
    unfold resolve_iri. destruct (PrefixModel.rsplit_once s) as [[p l]|] eqn:R.
    - apply rsplit_iff in R as [-> N]. unfold PrefixModel.resolve_prefix_local. split.
      + destruct (PrefixModel.find p pm) as [ns|] eqn:F.
        * destruct l as [|c l].
          { intros [= <-]. apply names_prefix, find_namespace, F. }
          destruct (PrefixModel.extend is_iri ns (c :: l)) as [j|] eqn:E.
          { intros [= <-]. apply (names_prefixed _ _ _ _ ns); [apply find_namespace, F|discriminate|exact N|apply extend_iff, E]. }
          destruct p as [|x p]; cbn [is_nil]; [|discriminate]. intro H. apply relative_iff in H as (b & B & J).
          apply (names_empty _ _ _ b); try assumption. intros (ns' & Ns & D). apply find_namespace in Ns. rewrite F in Ns. injection Ns as <-.
          destruct D as [D|(j & D)]; [discriminate|]. apply extend_iff in D. congruence.
        * destruct p as [|x p]; cbn [is_nil]; [|discriminate]. intro H. apply relative_iff in H as (b & B & J).
          apply (names_empty _ _ _ b); try assumption. intros (ns' & Ns & D). apply find_namespace in Ns. congruence.
      + intro H. inversion H as [q ns Ns E E'|q ns l' j Ns NE N' J E E'|b l' j B N' J NO E E'|b s j B N' J E E'].
        * apply last_colon in E as [-> <-]; [|intros []|exact N]. subst ns. apply find_namespace in Ns. rewrite Ns. reflexivity.
        * apply last_colon in E as [-> ->]; [|exact N'|exact N]. subst j. apply find_namespace in Ns. rewrite Ns. destruct l as [|c l]; [congruence|].
          apply extend_iff in J. rewrite J. reflexivity.
        * change (58 :: l') with ([] ++ 58 :: l') in E. apply last_colon in E as [<- ->]; [|exact N'|exact N]. cbn [is_nil].
          assert (X : relative is_iri base l = Ok i) by (apply relative_iff; exists b; split; assumption).
          destruct (PrefixModel.find [] pm) as [ns|] eqn:F; [|exact X]. apply find_namespace in F.
          destruct l as [|c l]; [exfalso; apply NO; exists ns; split; [exact F|left; reflexivity]|].
          destruct (PrefixModel.extend is_iri ns (c :: l)) as [k|] eqn:EX; [|exact X]. exfalso. apply NO. exists ns. split; [exact F|right; exists k; apply extend_iff, EX].
        * exfalso. apply N'. subst s. apply in_app_iff. right. left. reflexivity.
    - apply PrefixLemmas.rsplit_None in R. rewrite relative_iff. split.
      + intros (b & B & J). apply (names_relative _ _ _ b); assumption.
      + intro H. inversion H as [q ns Ns E E'|q ns l' j Ns NE N' J E E'|b l' j B N' J NO E E'|b s' j B N' J E E']; subst s; try subst i.
        * exfalso. apply R. apply in_app_iff. right. left. reflexivity.
        * exfalso. apply R. apply in_app_iff. right. left. reflexivity.
        * exfalso. apply R. left. reflexivity.
        * exists b. split; [exact B|exact J].
  Qed.
End Names.

(** ** words *)
Lemma split_spaces_app p c s : Forall (fun x => ~ space x) p -> space c -> split_spaces (p ++ c :: s) = p :: split_spaces s.
Proof.
  intros F C. induction F as [|x p Hx F IH]; cbn.
  - apply is_space_iff in C. rewrite C. reflexivity.
  - apply is_space_false in Hx. rewrite Hx, IH. reflexivity.
Qed.
Lemma split_spaces_whole p : Forall (fun x => ~ space x) p -> split_spaces p = [p].
Proof. induction 1 as [|x p Hx F IH]; cbn; [reflexivity|]. apply is_space_false in Hx. rewrite Hx, IH. reflexivity. Qed.
Lemma at_space (s : str) : Forall (fun x => ~ space x) s \/ exists p c r, s = p ++ c :: r /\ Forall (fun x => ~ space x) p /\ space c.
Proof.
  induction s as [|c s IH]; [left; constructor|]. destruct (space_dec c) as [H|H]; [right; exists [], c, s; split; [reflexivity|split; [constructor|exact H]]|].
  destruct IH as [F|(p & x & r & -> & F & X)]; [left; constructor; assumption|]. right. exists (c :: p), x, r. split; [reflexivity|]. split; [constructor; assumption|exact X].
Qed.
Lemma split_ws_app p c s : Forall (fun x => ~ space x) p -> space c -> split_whitespace (p ++ c :: s) = (if is_nil p then [] else [p]) ++ split_whitespace s.
Proof. intros F C. unfold split_whitespace. rewrite split_spaces_app by assumption. cbn. destruct (is_nil p); reflexivity. Qed.
Lemma split_ws_whole p : Forall (fun x => ~ space x) p -> split_whitespace p = if is_nil p then [] else [p].
Proof. intro F. unfold split_whitespace. rewrite split_spaces_whole by assumption. cbn. destruct (is_nil p); reflexivity. Qed.
Lemma split_ws_space c s : space c -> split_whitespace (c :: s) = split_whitespace s.
Proof. intro C. exact (split_ws_app [] c s (Forall_nil _) C). Qed.
Lemma split_ws_blank a s : blank a -> split_whitespace (a ++ s) = split_whitespace s.
Proof. induction 1 as [|c a C B IH]; [reflexivity|]. cbn [app]. rewrite split_ws_space by exact C. exact IH. Qed.
Lemma tokens_space c s l : space c -> tokens s l -> tokens (c :: s) l.
Proof.
  intros C. destruct 1 as [s H|a w rest l Ha Hw Hn Hr H].
  - constructor. constructor; assumption.
  - apply (tokens_more (c :: a) w rest l); try assumption. constructor; assumption.
Qed.
Lemma tokens_iff s l : tokens s l <-> split_whitespace s = l.
Proof.
  split.
  - induction 1 as [s H|a w rest l Ha Hw Hn Hr H IH].
    + rewrite <- (app_nil_r s), split_ws_blank by exact H. reflexivity.
    + rewrite split_ws_blank by exact Ha. destruct Hr as [->|(c & r & -> & C)].
      * rewrite app_nil_r, split_ws_whole by exact Hn. destruct w; [congruence|]. cbn in *. rewrite <- IH. reflexivity.
      * rewrite split_ws_app by assumption. rewrite split_ws_space in IH by exact C. rewrite IH. destruct w; [congruence|reflexivity].
  - remember (length s) as n eqn:En. revert s l En. induction n as [n IH] using lt_wf_ind. intros s l ->.
    destruct (at_space s) as [H|(p & c & r & -> & H & C)].
    + rewrite split_ws_whole by exact H. intros <-. destruct s as [|x s]; [constructor; constructor|].
      cbn. rewrite <- (app_nil_r (x :: s)) at 1. apply (tokens_more [] (x :: s) [] []); [constructor|discriminate|exact H|left; reflexivity|constructor; constructor].
    + rewrite split_ws_app by assumption. assert (W : tokens r (split_whitespace r)).
      { apply (IH (length r)); [|reflexivity|reflexivity]. rewrite app_length. cbn. lia. }
      intros <-. destruct p as [|x p]; cbn [is_nil app].
      * apply tokens_space; assumption.
      * apply (tokens_more [] (x :: p) (c :: r) (split_whitespace r)); [constructor|discriminate|exact H|right; eauto|apply tokens_space; assumption].
Qed.
Lemma refers_iff d s w : refers d s w <-> In w (filter (fun w => negb (str_eqb w [d])) (split_whitespace s)).
Proof.
  rewrite filter_In, negb_true_iff. unfold refers. split.
  - intros (l & W & I & N). apply tokens_iff in W as <-. split; [exact I|]. destruct (str_eqb w [d]) eqn:E; [|reflexivity]. apply str_eqb_eq in E. contradiction.
  - intros [I N]. exists (split_whitespace s). split; [apply tokens_iff; reflexivity|]. split; [exact I|]. intro E. apply str_eqb_eq in E. congruence.
Qed.
