(** Compiled schemas in the fragment. *)
From Coq Require Import List Arith Bool ZArith Lia Permutation.
Import ListNotations.
From Verif Require Import RbeModel RbeSpec PendingModel TableModel TableSpec GraphModel EngineModel EngineSpec CompModel CompSpec CompLemmas CompMeaning CompDecide CompSchema CompTyping.

Lemma predicates_each id l mn mx acts : predicates (AEach id l mn mx acts) = flat_map predicates l.
Proof. cbn [predicates]. induction l as [|e l IH]; [reflexivity|]. cbn [flat_map]. rewrite IH. reflexivity. Qed.
Lemma predicates_one id l mn mx acts : predicates (AOne id l mn mx acts) = flat_map predicates l.
Proof. exact (predicates_each id l mn mx acts). Qed.
Lemma mentions_predicates : forall e k, mentions e k <-> In k (predicates e).
Proof.
  apply (proj2 (A := forall e : ase, True)). apply (ase_ate_ind (fun _ => True)); try exact (fun _ => Logic.I); try (intros; exact Logic.I).
  - intros id l mn mx acts F k. rewrite mentions_each, predicates_each, in_flat_map. rewrite Forall_forall in F.
    split; intros (e & I & H); exists e; (split; [exact I|]); apply (F e I); exact H.
  - intros id l mn mx acts F k. rewrite mentions_one, predicates_one, in_flat_map. rewrite Forall_forall in F.
    split; intros (e & I & H); exists e; (split; [exact I|]); apply (F e I); exact H.
  - intros id inv p o mn mx acts _ k. cbn. intuition.
  - intros r k. cbn. tauto.
Qed.

  (** ** conditions *)
  Lemma part_needs p v v' r : ~ TableSpec.needs (part_cond p) v v' r.
  Proof. destruct p as [k|ks]; cbn; [tauto|]. induction ks as [|k ks IH]; cbn; tauto. Qed.
  Lemma node_needs ps v v' r : ~ TableSpec.needs (node_cond ps) v v' r.
  Proof.
    assert (X : ~ TableSpec.needs (CAnd (map part_cond ps)) v v' r).
    { cbn [TableSpec.needs]. induction ps as [|p ps IH]; cbn [map fold_right]; [tauto|]. intros [H|H]; [exact (part_needs p v v' r H)|exact (IH H)]. }
    destruct ps as [|p [|q ps]]; cbn [node_cond]; [cbn; tauto|apply part_needs|exact X].
  Qed.
  Lemma acts_needs acts c v v' r : TableSpec.needs (with_acts (act_conds acts) c) v v' r -> TableSpec.needs c v v' r.
  Proof.
    unfold with_acts. destruct acts as [|a acts]; [auto|]. set (l := a :: acts). change (match act_conds l with [] => c | _ => CAnd (act_conds l ++ [c]) end) with (CAnd (act_conds l ++ [c])).
    cbn [TableSpec.needs]. clearbody l. unfold act_conds. induction l as [|b l IH]; cbn [map app fold_right]; [intros [H|[]]; exact H|].
    intros [[]|H]. exact (IH H).
  Qed.

Section Fragment.
  Variable St : nat -> option sexpr.
  Variable M : nat -> option nat.
  Variable L0 : nat.

  (** the components of the table and the triple constraints *)
  Definition listed (t : table) (te : ate) (c0 : nat) (c1 : nat) : Prop :=
    c1 = c0 + length (predicates te) /\
    forall i k, nth_error (predicates te) i = Some k -> exists v acts cv, component t (c0 + i) k (with_acts (act_conds acts) cv) /\
      has_constraint k v acts te /\ cond_codes M L0 St v cv.
  Lemma listed_group t l : Forall (fun e => forall c0 c1 r, codes_te St M L0 t e c0 c1 r -> listed t e c0 c1) l ->
    forall c0 c1 rs, codes_tes St M L0 t l c0 c1 rs ->
    c1 = c0 + length (flat_map predicates l) /\
    forall i k, nth_error (flat_map predicates l) i = Some k -> exists v acts cv e, component t (c0 + i) k (with_acts (act_conds acts) cv) /\
      In e l /\ has_constraint k v acts e /\ cond_codes M L0 St v cv.
  Proof.
    induction 1 as [|e l H F IH]; intros c0 c1 rs C; destruct rs as [|r rs]; cbn [codes_tes] in C; try destruct C; try (destruct C; fail).
    - split; [cbn; lia|]. intros [|i] k E; discriminate.
    - destruct H0 as [C1 C2]. destruct (H c0 x r C1) as [A B]. destruct (IH x c1 rs C2) as [A' B']. split.
      + cbn [flat_map]. rewrite app_length. lia.
      + intros i k E. cbn [flat_map] in E. destruct (Nat.lt_ge_cases i (length (predicates e))) as [Q|Q].
        * rewrite nth_error_app1 in E by exact Q. destruct (B i k E) as (v & acts & cv & X & Y & Z). exists v, acts, cv, e.
          split; [exact X|]. split; [left; reflexivity|]. split; [exact Y|exact Z].
        * rewrite nth_error_app2 in E by exact Q. destruct (B' _ k E) as (v & acts & cv & e' & X & Y & Z & W). exists v, acts, cv, e'.
          replace (c0 + i) with (x + (i - length (predicates e))) by lia. split; [exact X|]. split; [right; exact Y|]. split; [exact Z|exact W].
  Qed.
  Lemma codes_listed t te : forall c0 c1 r, codes_te St M L0 t te c0 c1 r -> listed t te c0 c1.
  Proof.
    revert te. apply (proj2 (A := forall e : ase, True)). apply (ase_ate_ind (fun _ => True)); try exact (fun _ => Logic.I); try (intros; exact Logic.I).
    - intros id l mn mx acts F c0 c1 r C. apply codes_each in C. destruct C as (rs & m & x & _ & _ & _ & C). unfold listed. rewrite predicates_each.
      destruct (listed_group t l F c0 c1 rs C) as [A B]. split; [exact A|]. intros i k E. destruct (B i k E) as (v & a & cv & e & X & Y & Z & W).
      exists v, a, cv. split; [exact X|]. split; [exact (has_each k v a id l e mn mx acts Y Z)|exact W].
    - intros id l mn mx acts F c0 c1 r C. apply codes_one in C. destruct C as (rs & m & x & _ & _ & _ & C). unfold listed. rewrite predicates_one.
      destruct (listed_group t l F c0 c1 rs C) as [A B]. split; [exact A|]. intros i k E. destruct (B i k E) as (v & a & cv & e & X & Y & Z & W).
      exists v, a, cv. split; [exact X|]. split; [exact (has_one k v a id l e mn mx acts Y Z)|exact W].
    - intros id inv p o mn mx acts _ c0 c1 r C. cbn [codes_te] in C. destruct C as (m & x & c & _ & _ & _ & -> & C & V). split; [cbn; lia|].
      intros [|[|i]] k E; cbn in E; try discriminate. injection E as <-. exists o, acts, c. rewrite Nat.add_0_r. split; [exact C|].
      split; [constructor; reflexivity|exact V].
    - intros r0 c0 c1 r C. destruct C.
  Qed.

  (** ** the regular bag expression *)
  Lemma group_from r m x : r = rs_from (rs_rbe r) -> mk_card_group r (mkCard m x) = rs_from (rs_rbe (mk_card_group r (mkCard m x))).
  Proof.
    intro H. unfold mk_card_group. destruct (is_1_1 _); [exact H|]. destruct (is_star _); [cbn; rewrite <- H; reflexivity|].
    destruct (is_plus _); [cbn; rewrite <- H; reflexivity|]. cbn. rewrite <- H. reflexivity.
  Qed.
  Lemma codes_from t te : forall c0 c1 r, codes_te St M L0 t te c0 c1 r -> r = rs_from (rs_rbe r).
  Proof.
    revert te. apply (proj2 (A := forall e : ase, True)).
    assert (X : forall l, Forall (fun te => forall c0 c1 r, codes_te St M L0 t te c0 c1 r -> r = rs_from (rs_rbe r)) l ->
      forall c0 c1 rs, codes_tes St M L0 t l c0 c1 rs -> rs = map rs_from (map rs_rbe rs)).
    { induction 1 as [|e l H F IH]; intros c0 c1 [|r rs] C; cbn [codes_tes] in C; try destruct C; [reflexivity|].
      destruct H0 as [C1 C2]. cbn [map]. rewrite <- (H _ _ _ C1), <- (IH _ _ _ C2). reflexivity. }
    apply (ase_ate_ind (fun _ => True)); try exact (fun _ => Logic.I); try (intros; exact Logic.I).
    - intros id l mn mx acts F c0 c1 r C. apply codes_each in C. destruct C as (rs & m & x & _ & _ & -> & C). apply group_from.
      cbn [rs_and rs_rbe rs_from]. rewrite <- (X l F c0 c1 rs C). reflexivity.
    - intros id l mn mx acts F c0 c1 r C. apply codes_one in C. destruct C as (rs & m & x & _ & _ & -> & C). apply group_from.
      cbn [rs_or rs_rbe rs_from]. rewrite <- (X l F c0 c1 rs C). reflexivity.
    - intros id inv p o mn mx acts _ c0 c1 r C. cbn [codes_te] in C. destruct C as (m & x & c & _ & _ & -> & _). reflexivity.
    - intros r0 c0 c1 r C. destruct C.
  Qed.

  Definition all3 (e : rbe) : Prop := wf e /\ no00 e /\ no_fail e.
  Lemma all3_group r mn mx m x : cnv_min mn = Ok m -> cnv_max mx = Ok x -> (exists k, 0 < k /\ at_least mn k /\ at_most mx k) ->
    all3 (rs_rbe r) -> all3 (rs_rbe (mk_card_group r (mkCard m x))).
  Proof.
    intros A B (k & K & L & U) H. apply (cnv_min_spec mn m k A) in L. apply (cnv_max_spec mx x k B) in U.
    unfold mk_card_group. destruct (is_1_1 _); [exact H|]. destruct H as (H1 & H2 & H3).
    destruct (is_star _); [repeat split; try assumption; cbn; exact Logic.I|]. destruct (is_plus _); [repeat split; try assumption; cbn; exact Logic.I|].
    unfold all3, wf, no00, no_fail. cbn [rs_repeat rs_rbe everywhere wf_node no00_node cmin cmax]. split; [split; [|exact H1]|split; [split; [|exact H2]|split; [exact Logic.I|exact H3]]].
    - destruct x; cbn in *; try exact Logic.I; lia.
    - destruct x; cbn in *; try discriminate. intro E. injection E as ->. lia.
  Qed.
  Lemma sensible_all l : (fix all l := match l with [] => True | e :: r => sensible e /\ all r end) l <-> Forall sensible l.
  Proof. induction l as [|e l IH]; [split; constructor|]. rewrite IH. split; [intros [A B]; constructor; auto|intro H; inversion H; auto]. Qed.
  Lemma everywhere_all P rs : fold_right (fun e Q => everywhere P e /\ Q) True rs <-> Forall (everywhere P) rs.
  Proof. induction rs as [|e l IH]; [split; constructor|]. cbn [fold_right]. rewrite IH. split; [intros [A B]; constructor; auto|intro H; inversion H; auto]. Qed.
  Lemma all3_all rs : Forall all3 rs -> (forall P, (P = wf_node \/ P = no00_node \/ P = (fun e => match e with Fail _ => False | _ => True end)) ->
    fold_right (fun e Q => everywhere P e /\ Q) True rs).
  Proof.
    intros F P H. apply everywhere_all. apply Forall_forall. intros e I. rewrite Forall_forall in F. destruct (F e I) as (A & B & C).
    destruct H as [->|[->| ->]]; assumption.
  Qed.
  Lemma codes_all3 t te : forall c0 c1 r, codes_te St M L0 t te c0 c1 r -> sensible te -> all3 (rs_rbe r).
  Proof.
    revert te. apply (proj2 (A := forall e : ase, True)).
    assert (X : forall l, Forall (fun te => forall c0 c1 r, codes_te St M L0 t te c0 c1 r -> sensible te -> all3 (rs_rbe r)) l ->
      forall c0 c1 rs, codes_tes St M L0 t l c0 c1 rs -> Forall sensible l -> Forall all3 (map rs_rbe rs) /\ length rs = length l).
    { induction 1 as [|e l H F IH]; intros c0 c1 [|r rs] C S; cbn [codes_tes] in C; try destruct C; [split; [constructor|reflexivity]|].
      destruct H0 as [C1 C2]. inversion S; subst. destruct (IH _ _ _ C2) as [A B]; [assumption|]. cbn [map length].
      split; [constructor; [exact (H _ _ _ C1 ltac:(assumption))|exact A]|congruence]. }
    apply (ase_ate_ind (fun _ => True)); try exact (fun _ => Logic.I); try (intros; exact Logic.I).
    - intros id l mn mx acts F c0 c1 r C S. apply codes_each in C. destruct C as (rs & m & x & A & B & -> & C). cbn [sensible] in S. destruct S as [K S].
      apply sensible_all in S. destruct (X l F c0 c1 rs C S) as [Y _]. apply (all3_group _ mn mx); auto. pose proof (all3_all _ Y) as Z.
      cbn [rs_and rs_rbe]. repeat split; cbn [everywhere wf_node no00_node]; auto.
    - intros id l mn mx acts F c0 c1 r C S. apply codes_one in C. destruct C as (rs & m & x & A & B & -> & C). cbn [sensible] in S. destruct S as (N & K & S).
      apply sensible_all in S. destruct (X l F c0 c1 rs C S) as [Y LEN]. apply (all3_group _ mn mx); auto. pose proof (all3_all _ Y) as Z.
      cbn [rs_or rs_rbe]. repeat split; cbn [everywhere wf_node no00_node]; auto. destruct rs; [destruct l; [congruence|discriminate]|exact Logic.I].
    - intros id inv p o mn mx acts _ c0 c1 r C S. cbn [codes_te] in C. destruct C as (m & x & c & _ & _ & -> & _). cbn. repeat split.
    - intros r0 c0 c1 r C. destruct C.
  Qed.

  Lemma without_all l : (fix all l := match l with [] => True | e :: r => without_bounds e /\ all r end) l <-> Forall without_bounds l.
  Proof. induction l as [|e l IH]; [split; constructor|]. rewrite IH. split; [intros [A B]; constructor; auto|intro H; inversion H; auto]. Qed.
  Lemma shallow_all l : (fix all l := match l with [] => True | e :: r => shallow_bounds e /\ all r end) l <-> Forall shallow_bounds l.
  Proof. induction l as [|e l IH]; [split; constructor|]. rewrite IH. split; [intros [A B]; constructor; auto|intro H; inversion H; auto]. Qed.
  Lemma fold_all {A} (P : A -> Prop) rs : Forall P rs -> fold_right (fun e Q => P e /\ Q) True rs.
  Proof. induction 1; cbn; auto. Qed.
  Lemma unrepeated_card mn mx m x r : cnv_min mn = Ok m -> cnv_max mx = Ok x -> unrepeated mn mx -> mk_card_group r (mkCard m x) = r.
  Proof. intros A B [[->| ->] [->| ->]]; cbn in A, B; injection A as <-; injection B as <-; reflexivity. Qed.
  Lemma unlimited_card mn mx m x r : cnv_min mn = Ok m -> cnv_max mx = Ok x -> unlimited mn mx ->
    mk_card_group r (mkCard m x) = rs_star r \/ mk_card_group r (mkCard m x) = rs_plus r.
  Proof. intros A B [[->|[->| ->]] ->]; cbn in A, B; injection A as <-; injection B as <-; auto. Qed.
  Lemma codes_no_repeat t te : forall c0 c1 r, codes_te St M L0 t te c0 c1 r -> without_bounds te -> no_repeat (rs_rbe r).
  Proof.
    revert te. apply (proj2 (A := forall e : ase, True)).
    assert (X : forall l, Forall (fun te => forall c0 c1 r, codes_te St M L0 t te c0 c1 r -> without_bounds te -> no_repeat (rs_rbe r)) l ->
      forall c0 c1 rs, codes_tes St M L0 t l c0 c1 rs -> Forall without_bounds l -> fold_right (fun e P => no_repeat e /\ P) True (map rs_rbe rs)).
    { induction 1 as [|e l H F IH]; intros c0 c1 [|r rs] C S; cbn [codes_tes] in C; try destruct C; [exact Logic.I|].
      destruct H0 as [C1 C2]. inversion S; subst. cbn [map fold_right]. split; [exact (H _ _ _ C1 ltac:(assumption))|exact (IH _ _ _ C2 ltac:(assumption))]. }
    apply (ase_ate_ind (fun _ => True)); try exact (fun _ => Logic.I); try (intros; exact Logic.I).
    - intros id l mn mx acts F c0 c1 r C S. apply codes_each in C. destruct C as (rs & m & x & A & B & -> & C). cbn [without_bounds] in S. destruct S as [K S].
      apply without_all in S. pose proof (X l F c0 c1 rs C S) as Y. destruct K as [K|K]; [rewrite (unrepeated_card _ _ _ _ _ A B K); exact Y|].
      destruct (unlimited_card _ _ _ _ (rs_and rs) A B K) as [-> | ->]; exact Y.
    - intros id l mn mx acts F c0 c1 r C S. apply codes_one in C. destruct C as (rs & m & x & A & B & -> & C). cbn [without_bounds] in S. destruct S as [K S].
      apply without_all in S. pose proof (X l F c0 c1 rs C S) as Y. destruct K as [K|K]; [rewrite (unrepeated_card _ _ _ _ _ A B K); exact Y|].
      destruct (unlimited_card _ _ _ _ (rs_or rs) A B K) as [-> | ->]; exact Y.
    - intros id inv p o mn mx acts _ c0 c1 r C S. cbn [codes_te] in C. destruct C as (m & x & c & _ & _ & -> & _). exact Logic.I.
    - intros r0 c0 c1 r C. destruct C.
  Qed.
  Lemma no_repeats t l : forall c0 c1 rs, codes_tes St M L0 t l c0 c1 rs -> Forall without_bounds l -> fold_right (fun e P => no_repeat e /\ P) True (map rs_rbe rs).
  Proof.
    induction l as [|e l IH]; intros c0 c1 [|r rs] C S; cbn [codes_tes] in C; try destruct C; [exact Logic.I|]. inversion S; subst.
    cbn [map fold_right]. destruct H as [C1 C2]. split; [exact (codes_no_repeat _ _ _ _ _ C1 ltac:(assumption))|exact (IH _ _ _ C2 ltac:(assumption))].
  Qed.
  Lemma group_shallow r m x : no_repeat (rs_rbe r) -> shallow_repeat (rs_rbe r) -> shallow_repeat (rs_rbe (mk_card_group r (mkCard m x))).
  Proof. intros A B. unfold mk_card_group. destruct (is_1_1 _); [exact B|]. destruct (is_star _); [exact A|]. destruct (is_plus _); exact A. Qed.
  Lemma without_shallow e : without_bounds e -> shallow_bounds e.
  Proof. destruct e; cbn [without_bounds shallow_bounds]; try tauto. Qed.
  Lemma codes_shallow t te : forall c0 c1 r, codes_te St M L0 t te c0 c1 r -> shallow_bounds te -> shallow_repeat (rs_rbe r).
  Proof.
    revert te. apply (proj2 (A := forall e : ase, True)).
    assert (X : forall l, Forall (fun te => forall c0 c1 r, codes_te St M L0 t te c0 c1 r -> shallow_bounds te -> shallow_repeat (rs_rbe r)) l ->
      forall c0 c1 rs, codes_tes St M L0 t l c0 c1 rs -> Forall shallow_bounds l -> fold_right (fun e P => shallow_repeat e /\ P) True (map rs_rbe rs)).
    { induction 1 as [|e l H F IH]; intros c0 c1 [|r rs] C S; cbn [codes_tes] in C; try destruct C; [exact Logic.I|].
      destruct H0 as [C1 C2]. inversion S; subst. cbn [map fold_right]. split; [exact (H _ _ _ C1 ltac:(assumption))|exact (IH _ _ _ C2 ltac:(assumption))]. }
    assert (Y : forall l, Forall without_bounds l -> Forall shallow_bounds l).
    { intros l F. rewrite Forall_forall in *. intros e I. apply without_shallow. exact (F e I). }
    apply (ase_ate_ind (fun _ => True)); try exact (fun _ => Logic.I); try (intros; exact Logic.I).
    - intros id l mn mx acts F c0 c1 r C S. apply codes_each in C. destruct C as (rs & m & x & A & B & -> & C). cbn [shallow_bounds] in S. destruct S as [[K S]|S].
      + apply shallow_all in S. rewrite (unrepeated_card _ _ _ _ _ A B K). exact (X l F c0 c1 rs C S).
      + apply without_all in S. apply group_shallow; [exact (no_repeats t l c0 c1 rs C S)|exact (X l F c0 c1 rs C (Y l S))].
    - intros id l mn mx acts F c0 c1 r C S. apply codes_one in C. destruct C as (rs & m & x & A & B & -> & C). cbn [shallow_bounds] in S. destruct S as [[K S]|S].
      + apply shallow_all in S. rewrite (unrepeated_card _ _ _ _ _ A B K). exact (X l F c0 c1 rs C S).
      + apply without_all in S. apply group_shallow; [exact (no_repeats t l c0 c1 rs C S)|exact (X l F c0 c1 rs C (Y l S))].
    - intros id inv p o mn mx acts _ c0 c1 r C S. cbn [codes_te] in C. destruct C as (m & x & c & _ & _ & -> & _). exact Logic.I.
    - intros r0 c0 c1 r C. destruct C.
  Qed.

  Lemma value_needs o c v v' r : without_shapes o -> cond_codes M L0 St o c -> ~ TableSpec.needs c v v' r.
  Proof. intros [->|(ps & ->)]; cbn [cond_codes]; intros ->; [cbn; tauto|apply node_needs]. Qed.
  (** ** shapes *)
  Lemma component_constraint t0 te r t c k cd : tbuilt t0 -> codes_te St M L0 t0 te 0 (length (t_cond t0)) r -> t = with_rbe r t0 -> component t c k cd ->
    nth_error (predicates te) c = Some k /\
    exists v acts cv, cd = with_acts (act_conds acts) cv /\ has_constraint k v acts te /\ cond_codes M L0 St v cv.
  Proof.
    intros B C -> D. destruct (codes_listed t0 te 0 _ r C) as [LEN N]. assert (LT : c < length (predicates te)).
    { cbn in LEN. rewrite <- LEN. apply nth_error_Some. destruct D as [_ D]. cbn in D. congruence. }
    destruct (nth_error (predicates te) c) as [k'|] eqn:E; [|apply nth_error_None in E; lia].
    destruct (N c k' E) as (v & acts & cv & D' & H & V). cbn in D'. destruct (component_fun t0 c k cd _ _ D D') as [-> ->].
    split; [reflexivity|]. exists v, acts, cv. auto.
  Qed.
  Lemma mentioned_iff t0 te r k : tbuilt t0 -> codes_te St M L0 t0 te 0 (length (t_cond t0)) r -> (mentioned (with_rbe r t0) k <-> mentions te k).
  Proof.
    intros B C. rewrite mentions_predicates. split.
    - intros (c & cd & D). destruct (component_constraint t0 te r _ c k cd B C eq_refl D) as [N _]. exact (nth_error_In _ _ N).
    - intro I. apply In_nth_error in I. destruct I as (i & N). destruct (codes_listed t0 te 0 _ r C) as [_ L].
      destruct (L i k N) as (v & acts & cv & D & _). exists i, (with_acts (act_conds acts) cv). exact D.
  Qed.
End Fragment.
Arguments component_constraint {St M L0 t0 te r} t c k cd.

Section Compiled.
  Variable known : nat -> bool.
  Variable fuel : nat.
  Variable imported : list aschema.
  Variable root : aschema.
  Variable s : ir.
  Hypothesis OK : compile_ir known fuel imported root = Ok s.
  Hypothesis D : consistent imported root.
  Let M := label_index s.
  Let L0 := length (declarations imported root).
  Let St := entry s.

  Lemma coded_shape x j sh : codes St M L0 j x -> St j = Some (EShape sh) ->
    exists closed extra o extends, x = AShape closed extra o extends /\ codes St M L0 j (AShape closed extra o extends).
  Proof.
    intros C E. destruct x as [l|l|e|ps|closed extra o ex| |r].
    - apply codes_or in C. destruct C as (is & A & _). congruence.
    - apply codes_and in C. destruct C as (is & A & _). congruence.
    - destruct C as (k & A & _). congruence.
    - cbn in C. congruence.
    - exists closed, extra, o, ex. auto.
    - cbn in C. congruence.
    - destruct C as (k & A & _). congruence.
  Qed.
  Lemma coded_not x j i : codes St M L0 j x -> St j = Some (ENot i) -> exists e, x = ANot e.
  Proof.
    intros C E. destruct x as [l|l|e|ps|closed extra o ex| |r].
    - apply codes_or in C. destruct C as (is & A & _). congruence.
    - apply codes_and in C. destruct C as (is & A & _). congruence.
    - exists e. reflexivity.
    - cbn in C. congruence.
    - destruct C as (t & ps & exts & A & _). congruence.
    - cbn in C. congruence.
    - destruct C as (k & A & _). congruence.
  Qed.
  Lemma no_components t c k cd : t = t_new -> ~ component t c k cd.
  Proof. intros -> [X _]. destruct c; discriminate. Qed.
  Lemma in_cnv_extra extra k : In k (cnv_extra extra) <-> exists p, In p (match extra with Some l => l | None => [] end) /\ k = direct p.
  Proof.
    destruct extra as [l|]; cbn [cnv_extra]; [|split; [intros []|intros (p & [] & _)]]. rewrite in_map_iff.
    split; intros (p & A & B); exists p; auto.
  Qed.

  Lemma positive_compiled : all_positive imported root -> forall j se, St j = Some se -> positive_ir se.
  Proof.
    intros P j se E. destruct (all_coded known fuel imported root s OK D j se E) as [->|(l & e & x & DE & W & C)]; [exact Logic.I|]. pose proof (P l e DE x W) as PX.
    destruct se as [es|es|i|c|sh| |i|]; cbn [positive_ir]; auto.
    - destruct (coded_not x j i C E) as (e' & ->). exact PX.
    - intros c k cd v v' r CC I N. destruct (coded_shape x j sh C E) as (closed & extra & o & ex & -> & C').
      cbn [codes] in C'. destruct C' as (t & ps & exts & A & _ & C'). assert (sh = mkShape (cnv_closed closed) (cnv_extra extra) t ps exts) as -> by (unfold St in *; congruence).
      cbn [s_table s_extra] in *. apply in_cnv_extra in I. destruct I as (p & Ip & ->).
      destruct o as [te|]; [|destruct C' as [C' _]; exact (no_components t c _ cd C' CC)]. destruct C' as (t0 & r0 & -> & B & _ & C' & _).
      destruct (component_constraint _ c _ cd B C' eq_refl CC) as (_ & v0 & acts & cv & -> & H & V).
      destruct extra as [ext|]; [|destruct Ip]. apply acts_needs in N. exact (value_needs St M L0 v0 cv v v' r (PX p v0 acts Ip H) V N).
  Qed.

  (** ** the fragment *)
  Hypothesis F : all_in_fragment imported root.
  Hypothesis U : unambiguous imported root.
  Lemma shape_facts j sh : find (compiled s) j = Some (EShape sh) -> 
    s_extends sh = [] /\ plain_shape sh /\ exact_shape sh /\ same_remainder sh.
  Proof.
    intro E. rewrite compiled_find in E. destruct (all_coded known fuel imported root s OK D j _ E) as [Z|(l & e & x & DE & W & C)]; [discriminate Z|].
    pose proof (proj2 F l e DE x W) as PX. destruct (coded_shape x j sh C E) as (closed & extra & o & ex & -> & C'). clear C.
    cbn [codes] in C'. destruct C' as (t & ps & exts & A & FE & C'). assert (sh = mkShape (cnv_closed closed) (cnv_extra extra) t ps exts) as -> by (unfold St in *; congruence).
    cbn [s_extends s_table s_extra s_preds s_closed] in *. destruct PX as [-> PX].
    assert (exts = []) as -> by (inversion FE; reflexivity). split; [reflexivity|].
    destruct o as [te|].
    - destruct C' as (t0 & r & -> & B & OP & C & PS). destruct PX as (SE & SH & ONE & CS & CL).
      assert (MN := mentioned_iff St M L0 t0 te r). split; [|split].
      + intros c k cd CC. destruct (component_constraint _ c k cd B C eq_refl CC) as (_ & v & acts & cv & -> & H & V).
        destruct (CS k v acts H) as (_ & [->|NS] & _).
        * cbn. destruct cv as [| |cs] eqn:EC; auto. intros v1 v2 r1 N.
          destruct v as [[l1|l1|e1|qs|c1 x1 o1 e1| |r2]|]; cbn [cond_codes] in V; try (destruct V as (j1 & V & _); discriminate); try discriminate.
          -- rewrite V in N. exact (node_needs qs v1 v2 r1 N).
          -- destruct V as (j1 & _ & V). discriminate.
        * destruct (with_acts (act_conds acts) cv) eqn:EC; auto. intros v1 v2 r1 N. rewrite <- EC in N. apply acts_needs in N.
          exact (value_needs St M L0 v cv v1 v2 r1 NS V N).
      + cbn [with_rbe t_rbe]. split; [|split].
        * destruct (codes_all3 St M L0 t0 te _ _ r C SE) as (W1 & W2 & W3). split; [constructor; exact B|]. split; [exact (codes_from St M L0 t0 te _ _ r C)|].
          split; [exact OP|]. split; [exact W1|]. split; [exact W2|]. split; [exact W3|]. intros _. exact (codes_shallow St M L0 t0 te _ _ r C SH).
        * destruct ONE as [ND|NE].
          -- left. intros c c' k cd cd' C1 C2. destruct (component_constraint _ c k cd B C eq_refl C1) as (N1 & _).
             destruct (component_constraint _ c' k cd' B C eq_refl C2) as (N2 & _). rewrite NoDup_nth_error in ND. apply ND; [|congruence].
             apply nth_error_Some. congruence.
          -- right. intro LG. set (T := (fun _ _ => false) : typing).
             destruct (extension (fun _ _ => false) (fun _ => false) [] St M _ (c_labels known fuel imported root s OK D) (size s) (entries_dom s) (c_covered known fuel imported root s OK D) T) as (T' & (X1 & X2) & _).
             apply (NE (fun _ _ => false) (fun _ => false) [] T).
             destruct (te_meaning (fun _ _ => false) (fun _ => false) [] St M L0 T T' X1 (S (theight te))
                (fun e j n _ JL CJ => internal_right (fun _ _ => false) (fun _ => false) [] St M L0 T T' X1 X2 e j n JL CJ) te (Nat.lt_succ_diag_r _) t0 0 _ r C) as (_ & TM & _).
             apply TM. exists []. split; [constructor|exact LG].
        * intro k. cbn [s_preds s_table]. rewrite (PS k). symmetry. exact (MN k B C).
      + split; [|split]; cbn [s_table s_extra s_closed].
        * intros k MK. destruct MK as (c & cd & CC). destruct (component_constraint _ c k cd B C eq_refl CC) as (_ & v & acts & cv & _ & H & _). exact (proj1 (CS k v acts H)).
        * intros c k cd v v' r1 CC I N. destruct (component_constraint _ c k cd B C eq_refl CC) as (_ & v0 & acts & cv & -> & H & V).
          apply in_cnv_extra in I. destruct I as (p & Ip & ->). apply acts_needs in N.
          exact (value_needs St M L0 v0 cv v v' r1 (proj2 (proj2 (CS _ v0 acts H)) p Ip eq_refl) V N).
        * intros CT k I. apply in_cnv_extra in I. destruct I as (p & Ip & ->). apply (MN _ B C). apply CL; [|exact Ip].
          destruct closed as [[]|]; [reflexivity|discriminate|discriminate].
    - destruct C' as [-> ->]. assert (NC : forall c k cd, ~ component t_new c k cd) by (intros c k cd; apply no_components; reflexivity).
      split; [|split].
      + intros c k cd CC. destruct (NC c k cd CC).
      + split; [|split].
        * split; [constructor|]. split; [reflexivity|]. split; [reflexivity|]. cbn. repeat split.
        * left. intros c c' k cd cd' CC. destruct (NC c k cd CC).
        * intro k. cbn. split; [intros []|intros (c & cd & CC); exact (NC c k cd CC)].
      + split; [|split]; cbn [s_table s_extra s_closed].
        * intros k (c & cd & CC). destruct (NC c k cd CC).
        * intros c k cd v v' r1 CC. destruct (NC c k cd CC).
        * intros CT k I. apply in_cnv_extra in I. destruct I as (p & Ip & ->). rewrite PX in Ip; [destruct Ip|]. destruct closed as [[]|]; [reflexivity|discriminate|discriminate].
  Qed.
  Lemma inheritance_none l g0 : (forall ie sh, In ie l -> snd ie = EShape sh -> s_extends sh = []) ->
    fold_left (fun g ie => match snd ie with EShape s => fold_left (fun g e => add_edge g (fst ie) e tt) (s_extends s) g | _ => g end) l g0 = g0.
  Proof.
    revert g0. induction l as [|ie l IH]; intros g0 H; [reflexivity|]. cbn [fold_left]. rewrite IH by (intros ie' sh I; apply H; right; exact I).
    destruct (snd ie) as [| | | |sh| | |] eqn:E; try reflexivity. rewrite (H ie sh (or_introl eq_refl) E). reflexivity.
  Qed.
  Lemma in_combine_seq {A} (l : list A) k ie : In ie (combine (seq k (length l)) l) -> nth_error l (fst ie - k) = Some (snd ie) /\ k <= fst ie.
  Proof.
    revert k. induction l as [|a l IH]; intros k I; [destruct I|]. cbn [length seq combine] in I. destruct I as [<-|I].
    - cbn. rewrite Nat.sub_diag. auto.
    - destruct (IH (S k) I) as [X Y]. split; [|lia]. replace (fst ie - k) with (S (fst ie - S k)) by lia. exact X.
  Qed.
  Lemma compiled_no_inheritance : no_inheritance (compiled s).
  Proof.
    split; [|split].
    - cbn [compiled abstract]. destruct (ir_abstract s) as [|i l] eqn:E; [reflexivity|exfalso].
      destruct (proj1 (c_abstract known fuel imported root s OK D i)) as (d & N & AB); [rewrite E; left; reflexivity|].
      apply nth_error_In in N. apply in_flat_map in N. destruct N as (a & Ia & Id). rewrite (proj1 F a d Ia Id) in AB. discriminate.
    - cbn [compiled inherit]. unfold inheritance. apply inheritance_none. intros ie sh I E. apply in_combine_seq in I. rewrite Nat.sub_0_r in I.
      apply (shape_facts (fst ie)). rewrite compiled_find. unfold entry. rewrite <- E. exact (proj1 I).
    - intros i sh E. exact (proj1 (shape_facts i sh E)).
  Qed.
  Lemma compiled_without_negation : without_negation (compiled s).
  Proof.
    intros i j H. unfold label_negates in H. rewrite compiled_find in H. destruct (all_coded known fuel imported root s OK D i _ H) as [Z|(l & e & x & DE & W & C)]; [discriminate Z|].
    destruct (coded_not x i j C H) as (e' & ->). exact (proj2 F l e DE _ W).
  Qed.
  Lemma fragment_positive : all_positive imported root.
  Proof.
    intros l e DE x W. pose proof (proj2 F l e DE x W) as PX. destruct x as [| | | |closed [extra|] [te|] ex| |]; auto.
    destruct PX as (_ & _ & _ & _ & CS & _). intros p v acts I H. exact (proj2 (proj2 (CS _ v acts H)) p I eq_refl).
  Qed.
End Compiled.
