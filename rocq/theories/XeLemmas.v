(** The engine on schemas with inheritance. *)
From Coq Require Import List Arith Bool Lia Permutation Cantor ConstructiveEpsilon.
Import ListNotations.
From Verif Require Import RbeModel RbeSpec PendingModel PendingSpec PendingLemmas TableModel TableSpec TableLemmas
  GraphModel GraphSpec GraphLemmas ProveModel ProveSpec ProveLemmas ProveTotal ProveSem ProveHist EngineModel EngineSpec EngineShape EngineLemmas EngineFinal
  StepModel ClassModel ExtModel XtdModel XtdSpec XtdSel XtdMain XtdSingle XeSpec.

(** ** references are complete *)

Section References.
  Variable default_pred : nat.
  Variable sch : schema.

  Definition value_refs (e : sexpr) : list (nat * nat) := match e with EShape s => value_references s | _ => [] end.
  Definition succ_of (e : sexpr) : list nat :=
    match e with EOr l | EAnd l => l | ENot i | ERef i => [i] | EShape s => s_extends s | _ => [] end.
  Lemma refers_succ i j : refers sch i j <-> exists e, find sch i = Some e /\ In j (succ_of e).
  Proof.
    split; intros (e & F & H); exists e; (split; [exact F|]); destruct e; cbn in *; try tauto; try (left; congruence); destruct H as [<-|[]]; reflexivity.
  Qed.
  (** what a visit has finished *)
  Definition finished (v v' : list nat) (refs : list (nat * nat)) : Prop :=
    forall i, In i v' -> ~ In i v -> forall e, find sch i = Some e ->
      (forall x, In x (value_refs e) -> In x refs) /\ forall j, In j (succ_of e) -> In j v'.
  Definition visited_all (l : list nat) (acc : list (nat * nat)) (v : list nat) (refs : list (nat * nat)) (v' : list nat) : Prop :=
    (forall x, In x acc -> In x refs) /\ (forall x, In x v -> In x v') /\ (forall i, In i l -> In i v') /\ finished v v' refs.

  Lemma visit_all rec : (forall e v refs v', rec e v = Some (refs, v') -> visited_all (succ_of e) (value_refs e) v refs v') ->
    forall l acc v refs v', visit rec sch l acc v = Some (refs, v') -> visited_all l acc v refs v'.
  Proof.
    intro R. induction l as [|i l IH]; intros acc v refs v' H; cbn [visit] in H.
    - injection H as <- <-. split; [auto|]. split; [auto|]. split; [intros i []|]. intros i I N. destruct (N I).
    - destruct (mem i v) eqn:M.
      + apply mem_In in M. destruct (IH acc v refs v' H) as (A & B & C & D). split; [exact A|]. split; [exact B|]. split; [|exact D].
        intros j [<-|J]; [exact (B i M)|exact (C j J)].
      + apply mem_not_In in M. destruct (find sch i) as [e|] eqn:F.
        * destruct (rec e (i :: v)) as [[rf v1]|] eqn:E; [|discriminate]. destruct (R e _ _ _ E) as (A1 & B1 & C1 & D1).
          destruct (IH (acc ++ rf) v1 refs v' H) as (A & B & C & D). split; [intros x X; apply A; apply in_app_iff; left; exact X|].
          split; [intros x X; apply B, B1; right; exact X|]. split; [intros j [<-|J]; [apply B, B1; left; reflexivity|exact (C j J)]|].
          intros j J N e' Fj. destruct (in_dec Nat.eq_dec j v1) as [J1|N1]; [|exact (D j J N1 e' Fj)].
          destruct (Nat.eq_dec j i) as [->|NE].
          -- rewrite F in Fj. injection Fj as <-. split; [intros x X; apply A; apply in_app_iff; right; exact (A1 x X)|intros k K; apply B; exact (C1 k K)].
          -- destruct (D1 j J1) with (e := e') as (X1 & X2); [intros [X|X]; [exact (NE (eq_sym X))|exact (N X)]|exact Fj|].
             split; [intros x X; apply A; apply in_app_iff; right; exact (X1 x X)|intros k K; apply B; exact (X2 k K)].
        * destruct (IH acc (i :: v) refs v' H) as (A & B & C & D). split; [exact A|]. split; [intros x X; apply B; right; exact X|].
          split; [intros j [<-|J]; [apply B; left; reflexivity|exact (C j J)]|].
          intros j J N e' Fj. destruct (Nat.eq_dec j i) as [->|NE]; [congruence|]. apply (D j J); [|exact Fj]. intros [X|X]; [exact (NE (eq_sym X))|exact (N X)].
  Qed.
  Lemma references_all fuel : forall e v refs v', references_visited fuel default_pred sch e v = Some (refs, v') ->
    visited_all (succ_of e) (value_refs e) v refs v'.
  Proof.
    induction fuel as [|f IH]; intros e v refs v' H; [discriminate|]. cbn [references_visited] in H.
    destruct e as [l|l|j|c|s| |j|]; cbn [succ_of value_refs];
      try (injection H as <- <-; split; [auto|]; split; [auto|]; split; [intros i []|intros i I N; destruct (N I)]);
      try (apply (visit_all _ IH) in H; exact H).
    apply (visit_all _ IH) in H. destruct H as (A & B & C & D). split; [intros x []|]. split; [exact B|]. split; [exact C|exact D].
  Qed.
  (** the references of a shape and of all that it is made of *)
  Lemma references_complete i e j s p r : find sch i = Some e -> reach (refers sch) i j -> find sch j = Some (EShape s) ->
    In (p, r) (value_references s) -> In (p, r) (references default_pred sch e).
  Proof.
    intros F R Fj H. destruct (references_some default_pred sch e) as (v' & E). apply references_all in E. destruct E as (A & _ & C & D).
    assert (G : forall a b, reach (refers sch) a b -> In a v' -> In b v').
    { induction 1 as [a|a b c U R' IH]; [auto|]. intro I. apply IH. apply refers_succ in U. destruct U as (e' & F' & U).
      exact (proj2 (D a I (fun x => x) e' F') b U). }
    inversion R as [a|a b c U R' X Y]; subst.
    - rewrite F in Fj. injection Fj as ->. apply A. exact H.
    - apply refers_succ in U. destruct U as (e' & F' & U). rewrite F in F'. injection F' as <-.
      exact (proj1 (D j (G b j R' (C b U)) (fun x => x) _ Fj) (p, r) H).
  Qed.
End References.

(** ** resolutions stay below *)

Lemma stands_reach sch i j : stands_for sch i j -> reach (refers sch) i j.
Proof. induction 1 as [i N|i j k F S IH]; [constructor|]. apply reach_step with (b := j); [exists (ERef j); auto|exact IH]. Qed.
Lemma Forall2_In_r {A B} (R : A -> B -> Prop) l l' y : Forall2 R l l' -> In y l' -> exists x, In x l /\ R x y.
Proof. induction 1 as [|a b l l' H F IH]; [intros []|]. intros [<-|I]; [exists a; auto with datatypes|]. destruct (IH I) as (x & X & Y). exists x. auto with datatypes. Qed.

Lemma resolves_reach sch :
  (forall i B K, resolves sch i B K -> (forall b, In b B -> reach (refers sch) i b) /\ forall c S, In (c, S) K -> reach (refers sch) i c) /\
  (forall is B K, resolves_all sch is B K -> (forall b, In b B -> exists i, In i is /\ reach (refers sch) i b) /\
     forall c S, In (c, S) K -> exists i, In i is /\ reach (refers sch) i c).
Proof.
  apply resolves_both.
  - intros i j B K F R [A C]. split; [intros b Hb|intros c S Hc]; (apply reach_step with (b := j); [exists (ERef j); auto|]); [exact (A b Hb)|exact (C c S Hc)].
  - intros i s B K F R [A C]. split.
    + intros b [<-|Hb]; [constructor|]. destruct (A b Hb) as (x & X & Y). apply reach_step with (b := x); [exists (EShape s); auto|exact Y].
    + intros c S Hc. destruct (C c S Hc) as (x & X & Y). apply reach_step with (b := x); [exists (EShape s); auto|exact Y].
  - intros i es e B K F I R [A C]. split; [intros b Hb|intros c S Hc]; (apply reach_step with (b := e); [exists (EOr es); auto|]); [exact (A b Hb)|exact (C c S Hc)].
  - intros i before e after cs B K F N BU ST R [A C]. split.
    + intros b Hb. apply reach_step with (b := e); [eexists; split; [exact F|apply in_app_iff; right; left; reflexivity]|exact (A b Hb)].
    + intros c S Hc. apply in_app_iff in Hc. destruct Hc as [Hc|Hc].
      * apply reach_step with (b := e); [eexists; split; [exact F|apply in_app_iff; right; left; reflexivity]|exact (C c S Hc)].
      * apply in_map_iff in Hc. destruct Hc as (c' & E & Hc). injection E as -> _. destruct (Forall2_In_r _ _ _ _ ST Hc) as (x & X & Y).
        apply reach_step with (b := x); [|apply stands_reach; exact Y]. eexists. split; [exact F|]. apply in_app_iff in X. apply in_app_iff. destruct X; [left|right; right]; assumption.
  - intros i es cs F N ST. split; [intros b []|]. intros c S Hc. apply in_map_iff in Hc. destruct Hc as (c' & E & Hc). injection E as -> _.
    destruct (Forall2_In_r _ _ _ _ ST Hc) as (x & X & Y). apply reach_step with (b := x); [exists (EAnd es); auto|apply stands_reach; exact Y].
  - intros i c F. split; [intros b []|]. intros c' S [E|[]]. injection E as <- _. constructor.
  - intros i c F. split; [intros b []|]. intros c' S [E|[]]. injection E as <- _. constructor.
  - intros i F. split; [intros b []|]. intros c' S [E|[]]. injection E as <- _. constructor.
  - intros i F. split; [intros b []|intros c S []].
  - intros i F. split; [intros b []|intros c S []].
  - split; [intros b []|intros c S []].
  - intros p ps B K B' K' R [A C] R' [A' C']. split.
    + intros b Hb. apply in_app_iff in Hb. destruct Hb as [Hb|Hb]; [exists p; split; [left; reflexivity|exact (A b Hb)]|].
      destruct (A' b Hb) as (x & X & Y). exists x. split; [right; exact X|exact Y].
    + intros c S Hc. apply in_app_iff in Hc. destruct Hc as [Hc|Hc]; [exists p; split; [left; reflexivity|exact (C c S Hc)]|].
      destruct (C' c S Hc) as (x & X & Y). exists x. split; [right; exact X|exact Y].
Qed.

(** ** the check looks at the typing pointwise *)

Section Pointwise.
  Variable eval : nat -> nat -> bool.
  Variable external : nat -> nat -> bool.
  Variable border : list (option nat * table) -> list (option nat * table).
  Variable corder : list class -> list class.
  Variable sch : schema.
  Variable g : rdf.
  Variables t t' : nat -> bool.
  Hypothesis E : forall k, t k = t' k.

  Lemma forallb_same {A} (f f' : A -> bool) l : (forall x, f x = f' x) -> forallb f l = forallb f' l.
  Proof. intro H. induction l as [|x l IH]; [reflexivity|]. cbn [forallb]. rewrite H, IH. reflexivity. Qed.
  Lemma existsb_same {A} (f f' : A -> bool) l : (forall x, f x = f' x) -> existsb f l = existsb f' l.
  Proof. intro H. induction l as [|x l IH]; [reflexivity|]. cbn [existsb]. rewrite H, IH. reflexivity. Qed.
  Lemma some_item_same l : some_item t l = some_item t' l.
  Proof.
    induction l as [|[p|] l IH]; [reflexivity| |reflexivity]. cbn [some_item].
    rewrite (forallb_same _ (fun vr : nat * nat * list nat => t' (key (fst (fst vr)) (snd (fst vr))))) by (intro; apply E). rewrite IH. reflexivity.
  Qed.
  Lemma neigh_same tb vs : check_expr_neigh eval tb vs t = check_expr_neigh eval tb vs t'.
  Proof. apply some_item_same. Qed.
  Lemma partition_same bs cs p : partition_ok eval t bs cs p = partition_ok eval t' bs cs p.
  Proof.
    unfold partition_ok. f_equal; apply forallb_same; intro x; [apply neigh_same|]. apply forallb_same. intro y. apply neigh_same.
  Qed.
  Lemma main_same f : forall n i child, check_main eval sch g f n i child t = check_main eval sch g f n i child t'.
  Proof.
    induction f as [|f IH]; intros n i child; [reflexivity|]. cbn [check_main]. destruct (main_shape_constraints sch i) as [m|]; [|reflexivity].
    f_equal.
    - destruct (m_main m) as [s|]; [|reflexivity]. rewrite neigh_same. reflexivity.
    - destruct (m_main m) as [s|]; [|reflexivity]. generalize (s_extends s) as es. intro es. induction es as [|e es IHe]; [reflexivity|].
      rewrite IH, IHe. reflexivity.
  Qed.
  Lemma mains_same f n es s : check_mains eval sch g f n es s t = check_mains eval sch g f n es s t'.
  Proof. induction es as [|e es IH]; [reflexivity|]. cbn [check_mains]. rewrite main_same, IH. reflexivity. Qed.
  Lemma single_same f l n s : check_single eval border corder sch g f l n s t = check_single eval border corder sch g f l n s t'.
  Proof.
    unfold check_single. destruct (preds_extends sch f l) as [ps|]; [|reflexivity].
    destruct (neighs n (push_all ps (s_extra s)) g) as [values rem]. destruct (s_closed s && negb (no_one rem)); [reflexivity|].
    destruct (extends_closure sch f (s_extends s)) as [anc|]; [|reflexivity].
    destruct (ancestor_buckets eval sch f n anc) as [[[abs cs]|]|]; [|reflexivity|reflexivity].
    destruct (collect_buckets sch f (border ((None, s_table s) :: abs)) []) as [ts|]; [|reflexivity].
    rewrite mains_same. destruct (check_mains eval sch g f n (s_extends s) s t') as [[|]|]; [|reflexivity|reflexivity].
    match goal with |- context [if ?b then _ else _] => destruct b end; [reflexivity|].
    match goal with |- context [match ?b with Some _ => _ | None => _ end] => destruct b as [parts|] end; [|reflexivity].
    f_equal. apply existsb_same. intro p. apply partition_same.
  Qed.
  Lemma split_same f w w' n cs : (forall i, w i = w' i) -> split_constraints eval sch f w n cs = split_constraints eval sch f w' n cs.
  Proof. intro H. induction cs as [|c cs IH]; [reflexivity|]. cbn [split_constraints]. rewrite IH, H. reflexivity. Qed.
  Lemma selection_same f w w' n s sigma : (forall i, w i = w' i) ->
    check_selection eval border corder sch g f w n s sigma t = check_selection eval border corder sch g f w' n s sigma t'.
  Proof.
    intro H. unfold check_selection. destruct (neighs n (selection_preds sch s sigma) g) as [values rem].
    destruct (s_closed s && negb (no_one rem)); [reflexivity|].
    match goal with |- context [if ?b then _ else _] => destruct b end; [reflexivity|]. rewrite (split_same f w w' n _ H).
    destruct (split_constraints eval sch f w' n (a_constraints sigma)) as [[cs|]|]; [|reflexivity|reflexivity].
    match goal with |- context [match ?b with Some _ => _ | None => _ end] => destruct b as [parts|] end; [|reflexivity].
    f_equal. apply existsb_same. intro p. apply partition_same.
  Qed.
  Lemma selections_same f : forall c c' alts sel, (forall x, c x = c' x) -> selections f c alts sel = selections f c' alts sel.
  Proof.
    induction f as [|f IH]; intros c c' alts sel H; [reflexivity|]. cbn [selections]. destruct (pick alts sel alt_default) as [x|]; [|reflexivity].
    rewrite H. destruct (c' x) as [[|]|]; [reflexivity| |reflexivity]. destruct (advance alts sel) as [sel'|]; [|reflexivity]. apply IH. exact H.
  Qed.
  Lemma shape_same n s : check_node_shape eval g n s t = check_node_shape eval g n s t'.
  Proof. unfold check_node_shape. destruct (neighs n (candidate_preds s) g) as [v r]. rewrite neigh_same. reflexivity. Qed.
  Lemma constraint_same f : forall n i, check_constraint eval external border corder sch g f n i t = check_constraint eval external border corder sch g f n i t'.
  Proof.
    induction f as [|f IH]; intros n i; [reflexivity|]. cbn [check_constraint]. destruct (find sch i) as [[es|es|j|c|s| |j|]|]; try reflexivity.
    - induction es as [|e es IHe]; [reflexivity|]. rewrite IH, IHe. reflexivity.
    - induction es as [|e es IHe]; [reflexivity|]. rewrite IH, IHe. reflexivity.
    - rewrite IH. reflexivity.
    - rewrite shape_same, single_same. destruct (s_extends s) as [|p ps]; [reflexivity|].
      match goal with |- (if ?b then _ else _) = _ => destruct b end; [|reflexivity].
      apply selections_same. intro x. apply selection_same. intro j. apply IH.
    - apply IH.
  Qed.
  Lemma extends_same f l n s : check_shape_extends eval external border corder sch g f l n s t = check_shape_extends eval external border corder sch g f l n s t'.
  Proof.
    unfold check_shape_extends. rewrite single_same. match goal with |- (if ?b then _ else _) = _ => destruct b end; [|reflexivity].
    apply selections_same. intro x. apply selection_same. intro j. apply constraint_same.
  Qed.
End Pointwise.

(** ** the meaning improves with the typing *)

Section Improve.
  Variable eval : nat -> nat -> bool.
  Variable external : nat -> nat -> bool.
  Variable default_pred : nat.
  Variable sch : schema.
  Variable g : rdf.
  Variable str : nat -> nat.
  Hypothesis H_plain : plain sch.
  Hypothesis H_str : strata sch str.

  Lemma refers_uses i j : refers sch i j -> label_uses sch i j.
  Proof. intros (e & F & H). exists e. split; [exact F|]. destruct e; try exact H. left. exact H. Qed.
  Lemma refers_str i j : reach (refers sch) i j -> str j <= str i.
  Proof. induction 1 as [a|a b c U R IH]; [auto|]. pose proof (proj1 H_str a b (refers_uses _ _ U)). lia. Qed.
  Lemma reach_snoc (R : nat -> nat -> Prop) a b c : reach R a b -> R b c -> reach R a c.
  Proof. induction 1 as [a|a b d U Q IH]; intro H; [apply reach_step with (b := c); [exact H|constructor]|]. apply reach_step with (b := b); [exact U|exact (IH H)]. Qed.

  Variable n l : nat.
  Variable e0 : sexpr.
  Hypothesis H_find : find sch l = Some e0.
  Variables T T' : typing.
  (** what the check may look at *)
  Hypothesis H_dep : forall v r, In (key v r) (engine_dep default_pred sch g (key n l)) ->
    T v r = T' v r \/ ~ str r < str l /\ (T v r = true -> T' v r = true).

  Definition arc_of (kv : nat * nat) : Prop :=
    exists p, (fst kv = direct p /\ In (n, p, snd kv) g) \/ (fst kv = inverse p /\ In (snd kv, p, n) g).
  Lemma arc_seen j s k v c cd v' r : reach (refers sch) l j -> find sch j = Some (EShape s) -> arc_of (k, v) -> component (s_table s) c k cd ->
    TableSpec.needs cd v v' r -> In (key v' r) (engine_dep default_pred sch g (key n l)).
  Proof.
    intros R F A C N. pose proof (H_plain j s F c k cd C) as P. destruct cd as [x|r'|cs]; [destruct N| |destruct (P v v' r N)].
    destruct N as [-> ->]. apply (In_dep_reference default_pred sch g (key n l) e0 k v r').
    - rewrite key_label. exact H_find.
    - apply (references_complete default_pred sch l e0 j s k r' H_find R F). apply value_references_In. exists c. exact C.
    - rewrite key_node. exact A.
  Qed.
  Lemma arc_up j s kv c : reach (refers sch) l j -> find sch j = Some (EShape s) -> arc_of kv ->
    arc_matches eval T (s_table s) kv c -> arc_matches eval T' (s_table s) kv c.
  Proof.
    intros R F A (cd & C & S & N). exists cd. split; [exact C|]. split; [exact S|]. intros v r Nd. specialize (N v r Nd).
    destruct kv as [k w]. cbn [fst snd] in *. destruct (H_dep v r (arc_seen j s k w c cd v r R F A C Nd)) as [X|[_ X]]; [congruence|exact (X N)].
  Qed.
  Lemma needs_str j s c k cd v v' r : find sch j = Some (EShape s) -> component (s_table s) c k cd -> TableSpec.needs cd v v' r -> str r <= str j.
  Proof. intros F C N. apply (proj1 H_str). exists (EShape s). split; [exact F|]. right. exists c, k, cd, v, v'. split; assumption. Qed.
  Lemma arc_down j s kv c : reach (refers sch) l j -> find sch j = Some (EShape s) -> str j < str l -> arc_of kv ->
    arc_matches eval T' (s_table s) kv c -> arc_matches eval T (s_table s) kv c.
  Proof.
    intros R F L A (cd & C & S & N). exists cd. split; [exact C|]. split; [exact S|]. intros v r Nd. specialize (N v r Nd).
    destruct kv as [k w]. cbn [fst snd] in *. destruct (H_dep v r (arc_seen j s k w c cd v r R F A C Nd)) as [X|[X _]]; [congruence|].
    pose proof (needs_str j s c k cd w v r F C Nd). lia.
  Qed.
  Lemma neighbourhood_arc arcs kv : neighbourhood g n arcs -> In kv arcs -> arc_of kv.
  Proof. intros [_ N] I. destruct kv as [k v]. apply N. exact I. Qed.
  Lemma all_up (P P' : nat * nat -> nat -> Prop) arcs cs : (forall kv c, In kv arcs -> P kv c -> P' kv c) -> Forall2 P arcs cs -> Forall2 P' arcs cs.
  Proof. intros H F. induction F as [|a c arcs cs X F IH]; constructor; [apply H; [left; reflexivity|exact X]|]. apply IH. intros kv d I. apply H. right. exact I. Qed.
  Lemma variant_up j s : reach (refers sch) l j -> find sch j = Some (EShape s) -> shape_holds_variant eval g T n s -> shape_holds_variant eval g T' n s.
  Proof.
    intros R F (matched & rest & cs & NB & M & L & H). exists matched, rest, cs. split; [exact NB|]. split; [|split; [exact L|exact H]].
    revert M. apply all_up. intros kv c I. apply (arc_up j s kv c R F). apply (neighbourhood_arc _ _ NB). apply in_app_iff. left. exact I.
  Qed.
  Lemma variant_down j s : reach (refers sch) l j -> find sch j = Some (EShape s) -> str j < str l ->
    shape_holds_variant eval g T' n s -> shape_holds_variant eval g T n s.
  Proof.
    intros R F S (matched & rest & cs & NB & M & L & H). exists matched, rest, cs. split; [exact NB|]. split; [|split; [exact L|exact H]].
    revert M. apply all_up. intros kv c I. apply (arc_down j s kv c R F S). apply (neighbourhood_arc _ _ NB). apply in_app_iff. left. exact I.
  Qed.
  Lemma matched_up j s arcs : reach (refers sch) l j -> find sch j = Some (EShape s) -> (forall kv, In kv arcs -> arc_of kv) ->
    all_matched eval T (s_table s) arcs -> all_matched eval T' (s_table s) arcs.
  Proof.
    intros R F A (cs & M & L). exists cs. split; [|exact L]. revert M. apply all_up. intros kv c I. apply (arc_up j s kv c R F). exact (A kv I).
  Qed.

  Lemma whole_up i b : whole eval external sch g T n i b -> reach (refers sch) l i -> b = true \/ str i < str l -> whole eval external sch g T' n i b.
  Proof.
    induction 1 as [i c b F H|i s b F X H|i j b F W IH|i es F W IH|i es e F I W IH|i es e F I W IH|i es F W IH|i j b F W IH|i b F H|i F]; intros R L.
    - exact (whole_node _ _ _ _ _ _ i c b F H).
    - apply (whole_shape _ _ _ _ _ _ i s b F X). destruct L as [->|L].
      + split; [intros _|reflexivity]. apply (variant_up i s R F). apply H. reflexivity.
      + rewrite H. split; [exact (variant_up i s R F)|exact (variant_down i s R F L)].
    - apply (whole_not _ _ _ _ _ _ i j b F). apply IH.
      + apply (reach_snoc _ _ _ _ R). exists (ENot j). auto.
      + right. pose proof (proj2 H_str i j F). pose proof (refers_str _ _ R). lia.
    - apply (whole_and _ _ _ _ _ _ i es F). intros e I. apply IH; [exact I| |left; reflexivity]. apply (reach_snoc _ _ _ _ R). exists (EAnd es). auto.
    - apply (whole_and_not _ _ _ _ _ _ i es e F I). assert (U : refers sch i e) by (exists (EAnd es); auto). apply IH; [exact (reach_snoc _ _ _ _ R U)|].
      right. destruct L as [L|L]; [discriminate|]. pose proof (proj1 H_str i e (refers_uses _ _ U)). lia.
    - apply (whole_or _ _ _ _ _ _ i es e F I). assert (U : refers sch i e) by (exists (EOr es); auto). apply IH; [exact (reach_snoc _ _ _ _ R U)|left; reflexivity].
    - apply (whole_or_not _ _ _ _ _ _ i es F). intros e I. assert (U : refers sch i e) by (exists (EOr es); auto). apply IH; [exact I|exact (reach_snoc _ _ _ _ R U)|].
      right. destruct L as [L|L]; [discriminate|]. pose proof (proj1 H_str i e (refers_uses _ _ U)). lia.
    - apply (whole_ref _ _ _ _ _ _ i j b F). assert (U : refers sch i j) by (exists (ERef j); auto). apply IH; [exact (reach_snoc _ _ _ _ R U)|].
      destruct L as [L|L]; [left; exact L|right]. pose proof (proj1 H_str i j (refers_uses _ _ U)). lia.
    - exact (whole_external _ _ _ _ _ _ i b F H).
    - exact (whole_empty _ _ _ _ _ _ i F).
  Qed.
  Lemma constraint_up arcs c : (forall kv, In kv arcs -> arc_of kv) -> constraint_holds eval external sch g T n arcs c ->
    reach (refers sch) l c -> constraint_holds eval external sch g T' n arcs c.
  Proof.
    intro A. induction 1 as [i c F S|i s F X (m & r & P & M & H)|i j F W IH|i es F W IH|i j F W|i es F W|i F W|i F]; intro R.
    - exact (con_node _ _ _ _ _ _ _ i c F S).
    - apply (con_shape _ _ _ _ _ _ _ i s F X). exists m, r. split; [exact P|]. split; [|exact H].
      apply (matched_up i s m R F); [|exact M]. intros kv I. apply A. apply (Permutation_in _ P). apply in_app_iff. left. exact I.
    - apply (con_ref _ _ _ _ _ _ _ i j F). apply IH. apply (reach_snoc _ _ _ _ R). exists (ERef j). auto.
    - apply (con_and _ _ _ _ _ _ _ i es F). intros e I. apply IH; [exact I|]. apply (reach_snoc _ _ _ _ R). exists (EAnd es). auto.
    - apply (con_not _ _ _ _ _ _ _ i j F). apply (whole_up i true W R). left. reflexivity.
    - apply (con_or _ _ _ _ _ _ _ i es F). apply (whole_up i true W R). left. reflexivity.
    - apply (con_external _ _ _ _ _ _ _ i F). apply (whole_up i true W R). left. reflexivity.
    - exact (con_empty _ _ _ _ _ _ _ i F).
  Qed.
  Lemma extends_up s : find sch l = Some (EShape s) -> extends_holds eval external sch g T n s -> extends_holds eval external sch g T' n s.
  Proof.
    intros F (B & K & R & own & part & rest & NB & MO & MB & RS & KS). exists B, K. split; [exact R|].
    destruct (proj2 (resolves_reach sch) _ _ _ R) as [RB RK].
    assert (UP : forall i, (exists p, In p (s_extends s) /\ reach (refers sch) p i) -> reach (refers sch) l i).
    { intros i (p & P & Q). apply reach_step with (b := p); [exists (EShape s); auto|exact Q]. }
    assert (AP : forall kv, In kv (own ++ shares part B ++ rest) -> arc_of kv) by (intros kv; exact (neighbourhood_arc _ kv NB)).
    assert (AB : forall b kv, In b B -> In kv (part b) -> arc_of kv).
    { intros b kv Hb I. apply AP. apply in_app_iff. right. apply in_app_iff. left. apply in_flat_map. exists b. split; [apply nodup_In; exact Hb|exact I]. }
    exists own, part, rest. split; [exact NB|]. split; [|split; [|split; [exact RS|]]].
    - apply (matched_up l s own); [constructor|exact F| |exact MO]. intros kv I. apply AP. apply in_app_iff. left. exact I.
    - intros b t Hb (sb & Fb & <-). apply (matched_up b sb (part b)); [apply UP, RB; exact Hb|exact Fb|intros kv; exact (AB b kv Hb)|].
      apply MB; [exact Hb|]. exists sb. auto.
    - intros c S Hc. apply constraint_up; [|exact (KS c S Hc)|apply UP; exact (RK c S Hc)].
      intros kv I. apply in_flat_map in I. destruct I as (b & Hb & I). apply nodup_In in Hb. apply (AB b kv); [|exact I].
      destruct (proj2 (resolves_facts sch) _ _ _ R) as [_ SW]. exact (SW c S Hc b Hb).
  Qed.
End Improve.
