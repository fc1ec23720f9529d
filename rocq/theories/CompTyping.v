(** Typings of the syntax tree and of the compiled schema. *)
From Coq Require Import List Arith Bool ZArith Lia Permutation.
Import ListNotations.
From Verif Require Import RbeModel RbeSpec PendingModel TableModel TableSpec GraphModel EngineModel EngineSpec CompModel CompSpec CompLemmas CompMeaning CompDecide CompSchema.

Section Typing.
  Variable eval : nat -> nat -> bool.
  Variable ext : nat -> bool.
  Variable g : rdf.
  Variable St : nat -> option sexpr.
  Variable M : nat -> option nat.
  Variable ids : list nat.
  Let L0 := length ids.
  Hypothesis HM : forall l i, M l = Some i -> nth_error ids i = Some l.
  Let holds' := holds eval (fun n _ => ext n) (shape_holds eval g).

  (** an index that stands for a label; the others were given to a label that has another index as well *)
  Definition live (j : nat) : bool := match M (nth j ids 0) with Some i => i =? j | None => false end.
  Lemma live_spec j : live j = true <-> exists l, M l = Some j.
  Proof.
    unfold live. split.
    - destruct (M (nth j ids 0)) as [i|] eqn:E; [|discriminate]. intro H. apply Nat.eqb_eq in H as ->. eauto.
    - intros (l & H). rewrite (nth_error_nth ids j 0 (HM _ _ H)), H. apply Nat.eqb_refl.
  Qed.

  (** a typing of labels, extended to the indices made inside expressions *)
  Fixpoint up (T : typing) (k : nat) (n j : nat) : bool :=
    if j <? L0 then (if live j then T n (nth j ids 0) else true) else
    match k with
    | 0 => false
    | S k => match St j with Some se => holdsb eval (fun n _ => ext n) g (up T k) n j se | None => false end
    end.
  Lemma up_label T k n l i : M l = Some i -> T n l = up T k n i.
  Proof.
    intro H. assert (V : live i = true) by (apply live_spec; eauto). apply HM in H. assert (i < L0) by (apply nth_error_Some; congruence).
    destruct k; cbn [up]; (replace (i <? L0) with true by (symmetry; apply Nat.ltb_lt; assumption)); rewrite V, (nth_error_nth ids i 0 H); reflexivity.
  Qed.
  Lemma up_dead T k n j : j < L0 -> ~ (exists l, M l = Some j) -> up T k n j = true.
  Proof.
    intros A B. assert (V : live j = false) by (destruct (live j) eqn:E; [apply live_spec in E; tauto|reflexivity]).
    destruct k; cbn [up]; (replace (j <? L0) with true by (symmetry; apply Nat.ltb_lt; assumption)); rewrite V; reflexivity.
  Qed.
  Lemma up_right T k : forall e j n, height e < k -> L0 <= j -> codes St M L0 j e -> (up T k n j = true <-> sat eval ext g T e n).
  Proof.
    induction k as [|k IH]; intros e j n H J C; [lia|]. cbn [up]. replace (j <? L0) with false by (symmetry; apply Nat.ltb_ge; assumption).
    destruct (codes_some _ _ _ _ _ C) as (se & E). rewrite E, holdsb_spec.
    apply (meaning eval ext g St M L0 T (up T k) (fun n l i => up_label T k n l i) k IH e); [lia|exact C|exact E].
  Qed.

  Variable sz : nat.
  Hypothesis dom : forall j se, St j = Some se -> j < sz.
  Hypothesis covered : forall j, L0 <= j < sz -> exists x, codes St M L0 j x.

  Lemma max_height n : exists H, forall j, L0 <= j < n -> j < sz -> exists x, codes St M L0 j x /\ height x < H.
  Proof.
    induction n as [|n (H & IH)]; [exists 0; intros j J; lia|]. destruct (Nat.le_gt_cases L0 n) as [A|A]; [|exists H; intros j J; lia].
    destruct (Nat.lt_ge_cases n sz) as [B|B]; [|exists H; intros j J K; apply IH; lia].
    destruct (covered n) as (x & C); [lia|]. exists (S (Nat.max H (height x))). intros j J K. destruct (Nat.eq_dec j n) as [->|N].
    - exists x. split; [exact C|lia].
    - destruct (IH j) as (y & D & E); [lia|exact K|]. exists y. split; [exact D|lia].
  Qed.

  Definition extends_typing (T T' : typing) : Prop :=
    (forall n l i, M l = Some i -> T n l = T' n i) /\
    (forall j se n, L0 <= j -> St j = Some se -> (T' n j = true <-> holds' T' n j se)).
  Lemma extension T : exists T', extends_typing T T' /\ (forall j n, sz <= j -> L0 <= j -> T' n j = false) /\
    (forall j n, j < L0 -> ~ (exists l, M l = Some j) -> T' n j = true).
  Proof.
    destruct (max_height sz) as (H & MH). exists (up T H). split; [split; [intros n l i; apply up_label|]|split; [|intros j n; apply up_dead]].
    - intros j se n J E. pose proof (dom _ _ E) as D. destruct (MH j) as (x & C & LT); [lia|exact D|].
      rewrite (up_right T H x j n LT J C). symmetry.
      apply (meaning eval ext g St M L0 T (up T H) (fun n l i => up_label T H n l i) H (up_right T H) x); [lia|exact C|exact E].
    - intros j n A B. destruct H; cbn [up]; (replace (j <? L0) with false by (symmetry; apply Nat.ltb_ge; assumption)); [reflexivity|].
      destruct (St j) as [se|] eqn:E; [apply dom in E; lia|reflexivity].
  Qed.
  (** on expressions with such a typing *)
  Lemma extended T T' : extends_typing T T' -> forall e i n se, codes St M L0 i e -> St i = Some se -> (holds' T' n i se <-> sat eval ext g T e n).
  Proof.
    intros (A & B) e i n se C E. apply (meaning eval ext g St M L0 T T' A (height e)); auto.
    intros x j m _ J D. exact (internal_right eval ext g St M L0 T T' A B x j m J D).
  Qed.

  (** ** more in the typing, more holds *)
  Definition positive_ir (se : sexpr) : Prop :=
    match se with
    | ENot _ => False
    | EShape s => forall c k cd v v' r, component (s_table s) c k cd -> In k (s_extra s) -> ~ TableSpec.needs cd v v' r
    | _ => True
    end.
  Lemma holds_mono (T1 T2 : typing) n i se : (forall m j, T1 m j = true -> T2 m j = true) -> positive_ir se -> holds' T1 n i se -> holds' T2 n i se.
  Proof.
    intros S P. unfold holds'. destruct se as [es|es|j|c|s| |j|]; cbn [holds positive_ir] in *; auto.
    - intros (j & I & H). exists j. auto.
    - destruct P.
    - intros (matched & rest & cs & NB & F & LG & R). exists matched, rest, cs. split; [exact NB|]. split; [|split; [exact LG|]].
      + clear -F S. induction F as [|kv c m cs H F IH]; constructor; [|exact IH]. destruct H as (cd & A & B & C). exists cd. split; [exact A|]. split; [exact B|].
        intros v r N. apply S. exact (C v r N).
      + intros k v I D. destruct (R k v I D) as [R1 R2]. split; [|exact R2]. intro MM. destruct (R1 MM) as [X Y]. split; [exact X|].
        intros (c & cd & A & B & C). apply Y. exists c, cd. split; [exact A|]. split; [exact B|]. intros v' r N. destruct (P c k cd v v' r A X N).
  Qed.

  (** a typing that is only justified is below the extension of its labels *)
  Lemma justified_below (T T1 T2 : typing) : (forall j se, St j = Some se -> positive_ir se) ->
    (forall n l i, M l = Some i -> T n l = T1 n i) ->
    (forall n j, T1 n j = true -> exists se, St j = Some se /\ holds' T1 n j se) ->
    extends_typing T T2 ->
    forall e j n, L0 <= j -> codes St M L0 j e -> T1 n j = true -> T2 n j = true.
  Proof.
    intros P HT J (A & B).
    assert (X : forall K e j n, height e < K -> L0 <= j -> codes St M L0 j e -> T1 n j = true -> T2 n j = true).
    { induction K as [|K IH]; intros e j n H JL C H1; [lia|]. destruct (J n j H1) as (se & E & HS). 
      set (Tm := fun n j => T1 n j || T2 n j).
      apply (internal_right eval ext g St M L0 T T2 A B e j n JL C).
      apply (meaning eval ext g St M L0 T Tm) with (K := K) (i := j) (se := se); auto; [| |lia|].
      - intros m l i Mi. unfold Tm. rewrite <- (A m l i Mi), <- (HT m l i Mi), orb_diag. reflexivity.
      - intros x k m HX KL D. rewrite <- (internal_right eval ext g St M L0 T T2 A B x k m KL D). unfold Tm. rewrite orb_true_iff.
        split; [|auto]. intros [U|U]; [exact (IH x k m HX KL D U)|exact U].
      - apply (holds_mono T1 Tm); [|exact (P j se E)|exact HS]. intros m k U. unfold Tm. rewrite U. reflexivity. }
    intros e j n. apply (X (S (height e))). lia.
  Qed.
End Typing.

(** ** a compiled schema *)
Section Compiled.
  Variable known : nat -> bool.
  Variable fuel : nat.
  Variable imported : list aschema.
  Variable root : aschema.
  Variable s : ir.
  Hypothesis OK : compile_ir known fuel imported root = Ok s.
  Hypothesis D : consistent imported root.
  Let M := label_index s.
  Let L0 := length (declarations imported root).
  Let St := entry s.

  Lemma entries_dom j se : St j = Some se -> j < size s.
  Proof. intro E. apply nth_error_Some. unfold St, entry in E. congruence. Qed.
  Lemma c_labels l i : M l = Some i -> nth_error (declarations imported root) i = Some l.
  Proof. apply (compile_ir_spec known fuel imported root s OK D). Qed.
  Lemma c_size : L0 <= size s.
  Proof. apply (compile_ir_spec known fuel imported root s OK D). Qed.
  Lemma c_declared l e0 : declared imported root l e0 -> exists i e, M l = Some i /\ unfold_se (labelled imported root) e0 e /\ codes St M L0 i e.
  Proof. apply (compile_ir_spec known fuel imported root s OK D). Qed.
  Lemma c_internal j : L0 <= j < size s -> exists l e x, defines imported root l e /\ within x e /\ codes St M L0 j x.
  Proof. apply (compile_ir_spec known fuel imported root s OK D). Qed.
  Lemma c_abstract i : In i (ir_abstract s) <-> exists d, nth_error (flat_map a_shapes (imported ++ [root])) i = Some d /\ d_abstract d = true.
  Proof. apply (compile_ir_spec known fuel imported root s OK D). Qed.
  Lemma c_dead j : j < L0 -> (exists l, M l = Some j) \/ St j = Some EEmpty.
  Proof. apply (compile_ir_spec known fuel imported root s OK D). Qed.
  Lemma c_covered j : L0 <= j < size s -> exists x, codes St M L0 j x.
  Proof. intro J. destruct (c_internal j J) as (_ & _ & x & _ & _ & C). eauto. Qed.
  Lemma label_low l i : M l = Some i -> i < L0.
  Proof. intro H. apply c_labels in H. apply nth_error_Some. congruence. Qed.

  Lemma declared_id l : In l (declarations imported root) <-> exists e, declared imported root l e.
  Proof.
    unfold declarations, declared. rewrite in_app_iff, in_flat_map. split.
    - intros [(a & Ia & Id)|H].
      + apply in_map_iff in Id. destruct Id as (d & <- & Id). exists (d_expr d). left. exists a, d. auto.
      + destruct (a_start root) as [e|] eqn:E; [|destruct H]. destruct H as [<-|[]]. exists e. right. auto.
    - intros (e & [(a & d & Ia & Id & <- & <-)|[-> E]]); [left; exists a; split; [exact Ia|apply in_map; exact Id]|right]. rewrite E. left. reflexivity.
  Qed.
  Lemma label_at l j : M l = Some j -> exists e0 e, declared imported root l e0 /\ unfold_se (labelled imported root) e0 e /\ codes St M L0 j e.
  Proof.
    intro Mj. destruct (proj1 (declared_id l) (nth_error_In _ _ (c_labels _ _ Mj))) as (e0 & DE). destruct (c_declared l e0 DE) as (i & e & Mi & U & C).
    assert (i = j) as -> by congruence. exists e0, e. auto.
  Qed.
  (** every index codes a part of a definition, or nothing *)
  Lemma all_coded j se : St j = Some se -> se = EEmpty \/ exists l e x, defines imported root l e /\ within x e /\ codes St M L0 j x.
  Proof.
    intro E. pose proof (entries_dom _ _ E). destruct (Nat.lt_ge_cases j L0) as [A|A]; [|right; apply c_internal; auto].
    destruct (c_dead j A) as [(l & Mi)|Z]; [right|left; congruence].
    destruct (label_at l j Mi) as (e0 & e & DE & U & C). exists l, e, e. split; [exists e0; auto|]. split; [constructor|exact C].
  Qed.
  Lemma defined_has l e : defines imported root l e -> exists i, M l = Some i.
  Proof. intros (e0 & DE & _). destruct (c_declared l e0 DE) as (i & e' & Mi & _). eauto. Qed.
  Hypothesis U : unambiguous imported root.
  Lemma defined_coded l e : defines imported root l e -> exists i, M l = Some i /\ codes St M L0 i e.
  Proof.
    intros (e0 & DE & UE). destruct (c_declared l e0 DE) as (i & e' & Mi & UE' & C). exists i. split; [exact Mi|].
    rewrite (unfold_se_fun _ U _ _ UE e' UE'). exact C.
  Qed.

  Variable eval : nat -> nat -> bool.
  Variable ext : nat -> bool.
  Variable g : rdf.

  (** a typing of the indices that solves the equations of the schema *)
  Let solves_ir (T : typing) : Prop := solves_compiled eval ext g (compiled s) T.

  Lemma ir_solves T T' : (forall n l i, M l = Some i -> T n l = T' n i) -> solves_ir T' -> solves eval ext g imported root T.
  Proof.
    intros HT SO l e n DE. destruct (defined_coded l e DE) as (i & Mi & C). destruct (codes_some _ _ _ _ _ C) as (se & E).
    rewrite (HT n l i Mi). rewrite (SO n i se) by (rewrite compiled_find; exact E).
    apply (extended eval ext g St M (declarations imported root) T T'); auto. split; [exact HT|].
    intros j se' m _ E'. apply SO. rewrite compiled_find. exact E'.
  Qed.
  Lemma solves_ir_all T : solves eval ext g imported root T -> exists T', (forall n l i, M l = Some i -> T n l = T' n i) /\ solves_ir T'.
  Proof.
    intro SO. destruct (extension eval ext g St M _ c_labels (size s) entries_dom c_covered T) as (T' & X & _ & DT). exists T'. split; [apply X|].
    intros n j se E. rewrite compiled_find in E. destruct (Nat.lt_ge_cases j L0) as [A|A]; [|exact (proj2 X j se n A E)].
    destruct (c_dead j A) as [(l & Mi)|Z]; [|].
    2: { fold St in E. rewrite Z in E. injection E as <-. cbn [holds]. split; [intros _; exact Logic.I|intros _].
         destruct (live M (declarations imported root) j) eqn:V.
         - apply (live_spec M _ c_labels) in V as (l & Mi). destruct (label_at l j Mi) as (e0 & e & DE & UE & C). rewrite <- (proj1 X n l j Mi).
           apply (SO l e n); [exists e0; auto|]. exact (proj1 (extended eval ext g St M _ T T' X e j n EEmpty C Z) Logic.I).
         - apply DT; [exact A|]. intro H. apply (live_spec M _ c_labels) in H. congruence. }
    destruct (label_at l j Mi) as (e0 & e & DE & UE & C). rewrite <- (proj1 X n l j Mi).
    rewrite (SO l e n) by (exists e0; auto). symmetry. exact (extended eval ext g St M _ T T' X e j n se C E).
  Qed.
  Lemma solves_ir_unique T1 T2 : (forall n l i, M l = Some i -> T1 n i = T2 n i) -> solves_ir T1 -> solves_ir T2 ->
    forall n j, j < size s -> T1 n j = T2 n j.
  Proof.
    intros HT S1 S2 n j J. destruct (Nat.lt_ge_cases j L0) as [A|A].
    - destruct (c_dead j A) as [(l & Mi)|Z]; [exact (HT n l j Mi)|]. apply eq_true_iff_eq.
      rewrite (S1 n j EEmpty), (S2 n j EEmpty) by (rewrite compiled_find; exact Z). cbn [holds]. tauto.
    - destruct (c_covered j) as (x & C); [lia|].
      set (T := fun n l => match M l with Some i => T1 n i | None => false end).
      assert (R : forall T', (forall n l i, M l = Some i -> T n l = T' n i) -> solves_ir T' -> (T' n j = true <-> sat eval ext g T x n)).
      { intros T' H1 H2. refine (internal_right eval ext g St M L0 T T' H1 _ x j n A C). intros k se m _ E. apply H2. rewrite compiled_find. exact E. }
      assert (H1 : forall n l i, M l = Some i -> T n l = T1 n i) by (intros m l i Mi; unfold T; rewrite Mi; reflexivity).
      assert (H2 : forall n l i, M l = Some i -> T n l = T2 n i) by (intros m l i Mi; rewrite (H1 m l i Mi); exact (HT m l i Mi)).
      apply eq_true_iff_eq. rewrite (R T1 H1 S1), (R T2 H2 S2). tauto.
  Qed.

  (** ** greatest typings *)
  Let conf := conforms eval (fun n _ => ext n) (shape_holds eval g) (compiled s).
  Lemma has_conforms n l i : M l = Some i -> has_shape eval ext g imported root n l -> conf n i.
  Proof.
    intros Mi (T & Tn & J). destruct (extension eval ext g St M _ c_labels (size s) entries_dom c_covered T) as (T' & X & Z & _). exists T'.
    split; [rewrite <- (proj1 X n l i Mi); exact Tn|]. intros m j Tj. destruct (Nat.lt_ge_cases j (size s)) as [Q|Q].
    - destruct (entry s j) as [se|] eqn:E; [|apply nth_error_None in E; unfold size in Q; lia]. exists se. rewrite compiled_find. split; [exact E|].
      destruct (Nat.lt_ge_cases j L0) as [A|A]; [|apply (proj2 X j se m A E); exact Tj].
      destruct (c_dead j A) as [(l' & Ml)|Y]; [|fold St in E; rewrite Y in E; injection E as <-; exact Logic.I].
      destruct (label_at l' j Ml) as (e0 & e & DE & UE & C). rewrite <- (proj1 X m l' j Ml) in Tj. destruct (J m l' Tj) as (e' & DE' & SA).
      destruct (defined_coded l' e' DE') as (i' & Mi' & C'). assert (i' = j) as -> by congruence.
      apply (extended eval ext g St M _ T T' X e' j m se C' E). exact SA.
    - pose proof c_size. rewrite Z in Tj by lia. discriminate.
  Qed.

  Hypothesis POS : forall j se, St j = Some se -> positive_ir se.
  Lemma conforms_has n l i : M l = Some i -> conf n i -> has_shape eval ext g imported root n l.
  Proof.
    intros Mi (T1 & Tn & J). set (T := fun n l => match M l with Some i => T1 n i | None => false end).
    assert (HT : forall n l i, M l = Some i -> T n l = T1 n i) by (intros m l' i' Ml; unfold T; rewrite Ml; reflexivity).
    assert (J' : forall m j, T1 m j = true -> exists se, St j = Some se /\ holds eval (fun n _ => ext n) (shape_holds eval g) T1 m j se).
    { intros m j H. destruct (J m j H) as (se & E & HS). rewrite compiled_find in E. exists se. auto. }
    destruct (extension eval ext g St M _ c_labels (size s) entries_dom c_covered T) as (T2 & X & _).
    pose proof (justified_below eval ext g St M _ T T1 T2 POS HT J' X) as JB.
    exists T. split; [rewrite (HT n l i Mi); exact Tn|]. intros m l' H. unfold T in H. destruct (M l') as [j|] eqn:Ml; [|discriminate].
    destruct (label_at l' j Ml) as (e0 & e & DE & UE & C).
    exists e. split; [exists e0; auto|]. destruct (J' m j H) as (se & E & HS).
    apply (extended eval ext g St M _ T T2 X e j m se C E). 
    assert (HS2 : holds eval (fun n _ => ext n) (shape_holds eval g) (fun n k => T1 n k || T2 n k) m j se).
    { apply (holds_mono eval ext g T1); [|exact (POS j se E)|exact HS]. intros q k Q. rewrite Q. reflexivity. }
    apply (extended eval ext g St M _ T T2 X e j m se C E).
    refine (proj1 (meaning eval ext g St M L0 T (fun n k => T1 n k || T2 n k) _ (height e) _ e (le_n _) j m se C E) HS2).
    - intros q l2 i2 M2. rewrite <- (proj1 X q l2 i2 M2), <- (HT q l2 i2 M2), orb_diag. reflexivity.
    - intros x k q _ KL Ck. rewrite <- (internal_right eval ext g St M L0 T T2 (proj1 X) (proj2 X) x k q KL Ck). rewrite orb_true_iff.
      split; [|auto]. intros [V|V]; [exact (JB x k q KL Ck V)|exact V].
  Qed.
End Compiled.
