(* Facts about the map of prefixes and about finding declarations. *)
From Coq Require Import List String Ascii Bool Arith Lia.
Import ListNotations.
From Verif Require Import DpModel DpSpec.
Open Scope list_scope.

Lemma find_add m a i b : find (add m a i) b = if text_dec b a then Some i else find m b.
Proof.
  induction m as [|[c j] r IH]; cbn [add find]; [reflexivity|]. destruct (text_dec a c) as [->|N]; cbn [find].
  - destruct (text_dec b c); reflexivity.
  - rewrite IH. destruct (text_dec b c) as [->|]; [|reflexivity]. destruct (text_dec c a) as [E|]; [now elim N|reflexivity].
Qed.
Lemma find_none m a : find m a = None <-> ~ In a (List.map fst m).
Proof.
  induction m as [|[b i] r IH]; cbn [find List.map fst]; [cbn; tauto|]. destruct (text_dec a b) as [->|N]; [split; [discriminate|intros X; elim X; now left]|].
  rewrite IH. split; [intros X [E|E]; [now elim N|now elim X]|intros X E; apply X; now right].
Qed.
Lemma in_add m a i b : In b (List.map fst (add m a i)) <-> b = a \/ In b (List.map fst m).
Proof.
  destruct (text_dec b a) as [->|N].
  - split; [tauto|]. intros _. destruct (in_dec text_dec a (List.map fst (add m a i))) as [Y|Y]; [exact Y|]. apply find_none in Y. rewrite find_add in Y. destruct (text_dec a a); [discriminate|tauto].
  - split.
    + intros Y. right. destruct (in_dec text_dec b (List.map fst m)) as [Z|Z]; [exact Z|]. exfalso. apply find_none in Z.
      assert (E : find (add m a i) b = None) by (rewrite find_add; destruct (text_dec b a); [tauto|exact Z]). now apply find_none in E.
    + intros [Y|Y]; [tauto|]. destruct (in_dec text_dec b (List.map fst (add m a i))) as [Z|Z]; [exact Z|]. apply find_none in Z. rewrite find_add in Z.
      destruct (text_dec b a); [tauto|]. now apply find_none in Z.
Qed.
Lemma add_nodup m a i : NoDup (List.map fst m) -> NoDup (List.map fst (add m a i)).
Proof.
  induction m as [|[c j] r IH]; intros D; cbn [add]; [constructor; [intros []|constructor]|]. cbn [List.map fst] in D. inversion D as [|? ? N D']; subst.
  destruct (text_dec a c) as [->|X]; [exact D|]. cbn [List.map fst]. constructor; [|now apply IH]. rewrite in_add. intros [E|E]; [now elim X|now elim N].
Qed.
Lemma in_remove m a b : In b (List.map fst (remove m a)) -> In b (List.map fst m).
Proof. induction m as [|[c j] r IH]; cbn [remove]; [tauto|]. destruct (text_dec a c); cbn [List.map fst In]; tauto. Qed.
Lemma remove_nodup m a : NoDup (List.map fst m) -> NoDup (List.map fst (remove m a)).
Proof.
  induction m as [|[c j] r IH]; intros D; cbn [remove]; [exact D|]. inversion D as [|? ? N D']; subst. destruct (text_dec a c); [exact D'|].
  cbn [List.map fst]. constructor; [intros X; apply N; now apply in_remove in X|now apply IH].
Qed.
Lemma find_remove m a b : NoDup (List.map fst m) -> find (remove m a) b = if text_dec b a then None else find m b.
Proof.
  induction m as [|[c j] r IH]; intros D; cbn [remove find]; [now destruct (text_dec b a)|]. inversion D as [|? ? N D']; subst. cbn [fst] in N. destruct (text_dec a c) as [->|X].
  - destruct (text_dec b c) as [->|Y]; [|reflexivity]. now apply find_none.
  - cbn [find]. rewrite (IH D'). destruct (text_dec b c) as [->|Y]; [|reflexivity]. destruct (text_dec c a) as [E|]; [now elim X|reflexivity].
Qed.
Lemma find_in m a i : NoDup (List.map fst m) -> find m a = Some i <-> In (a, i) m.
Proof.
  induction m as [|[b j] r IH]; intros D; cbn [find]; [split; [discriminate|intros []]|]. inversion D as [|? ? N D']; subst. cbn [fst] in N. destruct (text_dec a b) as [->|X].
  - split; [intros [= ->]; now left|]. intros [E|E]; [now injection E as ->|]. elim N. apply in_map_iff. now exists (b, i).
  - rewrite (IH D'). split; [intros E; now right|]. intros [E|E]; [injection E as -> ->; now elim X|exact E].
Qed.

(* finding declarations *)
Lemma skip_white w l : all_white w -> skip (w ++ l) = skip l.
Proof. induction 1 as [|c w E _ IH]; [reflexivity|]. cbn [app skip]. now rewrite E. Qed.
Lemma skip_split l : exists w, all_white w /\ l = w ++ skip l.
Proof.
  induction l as [|c t [w [W E]]]; [exists []; split; [constructor|reflexivity]|]. cbn [skip]. destruct (white c) eqn:C; [|exists []; split; [constructor|reflexivity]].
  exists (c :: w). split; [now constructor|]. cbn [app]. now f_equal.
Qed.
Lemma spelled_same d k : spelled d k <-> List.length k = List.length (word d) /\ forall l, after d (word d) (k ++ l) = Some l.
Proof.
  destruct d; cbn [spelled].
  - split; [intros ->; split; [reflexivity|intros l; reflexivity]|]. intros [N H]. pose proof (H []) as X. rewrite app_nil_r in X. cbn in N.
    do 7 (destruct k as [|? k]; [discriminate|]). destruct k; [|discriminate]. cbn [word chars list_ascii_of_string after same] in X.
    repeat match type of X with context [Ascii.eqb ?a ?b] => destruct (Ascii.eqb_spec a b) as [<-|]; [|discriminate] end. reflexivity.
  - split.
    + intros E. pose proof (f_equal (@List.length ascii) E) as N. rewrite map_length in N. cbn in N. do 6 (destruct k as [|? k]; [discriminate|]). destruct k; [|discriminate].
      split; [reflexivity|]. cbn [List.map chars list_ascii_of_string] in E. injection E as E1 E2 E3 E4 E5 E6. intros l. cbn [word chars list_ascii_of_string after same app].
      rewrite E1, E2, E3, E4, E5, E6. reflexivity.
    + intros [N H]. pose proof (H []) as X. rewrite app_nil_r in X. cbn in N. do 6 (destruct k as [|? k]; [discriminate|]). destruct k; [|discriminate].
      cbn [word chars list_ascii_of_string after same] in X.
      repeat match type of X with context [Ascii.eqb ?a (lower ?b)] => let E := fresh in destruct (Ascii.eqb_spec a (lower b)) as [E|]; [|discriminate] end.
      cbn [List.map]. repeat match goal with E : _ = lower ?b |- _ => rewrite <- E; clear E end. reflexivity.
Qed.
Lemma after_split d l r : after d (word d) l = Some r -> exists k, spelled d k /\ l = k ++ r.
Proof.
  intros H. assert (G : forall w l r, after d w l = Some r -> exists k, l = k ++ r /\ List.length k = List.length w /\ forall m, after d w (k ++ m) = Some m).
  { clear. induction w as [|a w IH]; intros l r H; cbn [after] in H; [injection H as ->; exists []; repeat split; reflexivity|]. destruct l as [|b l]; [discriminate|].
    destruct (same d a b) eqn:E; [|discriminate]. destruct (IH _ _ H) as (k & -> & N & X). exists (b :: k). split; [reflexivity|]. split; [cbn; now f_equal|].
    intros m. cbn [app after]. rewrite E. apply X. }
  destruct (G _ _ _ H) as (k & -> & N & X). exists k. split; [|reflexivity]. now apply spelled_same.
Qed.
Lemma spelled_head d k l : spelled d k -> skip (k ++ l) = k ++ l.
Proof.
  destruct d; cbn [spelled].
  - intros ->. reflexivity.
  - intros E. destruct k as [|c k]; [discriminate|]. cbn [List.map] in E. injection E as E _. cbn [app skip].
    assert (W : white c = false); [|now rewrite W]. destruct (white c) eqn:W; [|reflexivity]. exfalso.
    destruct c as [[] [] [] [] [] [] [] []]; vm_compute in W, E; discriminate.
Qed.
Lemma name_split a r : alias_ok a -> match r with [] => True | c :: _ => white c = true \/ c = colon end -> name (a ++ r) = (a, r).
Proof.
  intros A R. induction A as [|c a [W C] _ IH]; cbn [app name].
  - destruct r as [|c r]; [reflexivity|]. cbn [name]. destruct R as [W| ->]; [now rewrite W|reflexivity].
  - rewrite W. destruct (Ascii.eqb_spec c colon) as [E|_]; [now elim C|]. cbn [orb]. now rewrite IH.
Qed.
Lemma alias_head a r : alias_ok a -> skip (a ++ r) = match a with [] => skip r | _ => a ++ r end.
Proof. intros A. destruct A as [|c a [W _] _]; [reflexivity|]. cbn [app skip]. now rewrite W. Qed.

Lemma declaration_there d n k g a g2 r : all_white n -> spelled d k -> all_white g -> g <> [] -> alias_ok a -> all_white g2 ->
  declaration d (n ++ k ++ g ++ a ++ g2 ++ colon :: r) = Some (a, r).
Proof.
  intros N K G G' A G2. unfold declaration. rewrite (skip_white n _ N), (spelled_head d k _ K). apply spelled_same in K as [_ K]. rewrite K.
  destruct G as [|c g W G]; [now elim G'|]. cbn [app]. rewrite W, (skip_white g _ G), (alias_head a _ A). destruct a as [|x a].
  - rewrite (skip_white g2 _ G2). reflexivity.
  - rewrite name_split; [rewrite (skip_white g2 _ G2); reflexivity|exact A|]. destruct G2 as [|y g2 Y _]; [now right|now left].
Qed.
Lemma declaration_white d w l : all_white w -> declaration d (w ++ l) = declaration d l.
Proof. intros W. unfold declaration. now rewrite (skip_white w l W). Qed.
Lemma declaration_shorter d l a r : declaration d l = Some (a, r) -> List.length r < List.length l.
Proof.
  unfold declaration. destruct (skip_split l) as (w & W & E). destruct (after d (word d) (skip l)) as [[|c t]|] eqn:F; try discriminate.
  destruct (after_split _ _ _ F) as (k & K & E'). destruct (white c); [|discriminate]. destruct (name (skip t)) as [b u] eqn:N. destruct (skip u) as [|x v] eqn:U; [discriminate|].
  destruct (Ascii.eqb x colon); [|discriminate]. intros [= _ <-].
  assert (L1 : forall l, List.length (skip l) <= List.length l) by (clear; intros l; induction l as [|c t IH]; [apply le_n|]; cbn [skip]; destruct (white c); cbn; lia).
  assert (L2 : forall l, List.length (snd (name l)) <= List.length l).
  { clear. intros l. induction l as [|c t IH]; [apply le_n|]. cbn [name]. destruct (white c || Ascii.eqb c colon); [apply le_n|]. destruct (name t); cbn in *; lia. }
  rewrite E, E'. rewrite !app_length. cbn [List.length]. pose proof (L1 u) as X. rewrite U in X. cbn in X. pose proof (L2 (skip t)) as Y. rewrite N in Y. cbn in Y. pose proof (L1 t). lia.
Qed.
Lemma scan_fuel d : forall f f' s l, List.length l < f -> List.length l < f' -> scan d f s l = scan d f' s l.
Proof.
  induction f as [|f IH]; intros f' s l H H'; [lia|]. destruct f' as [|f']; [lia|]. cbn [scan]. destruct (if s then declaration d l else None) as [[a r]|] eqn:E.
  - f_equal. assert (X : List.length r < List.length l) by (destruct s; [now apply declaration_shorter in E|discriminate]). apply IH; lia.
  - destruct l as [|c t]; [reflexivity|]. cbn in H, H'. apply IH; lia.
Qed.
Definition from (d : directive) (s : bool) (l : text) : list text := scan d (S (List.length l)) s l.
Lemma from_match d l a r : declaration d l = Some (a, r) -> from d true l = a :: from d false r.
Proof. intros E. unfold from at 1. cbn [scan]. rewrite E. f_equal. unfold from. pose proof (declaration_shorter _ _ _ _ E). apply scan_fuel; lia. Qed.
Lemma from_step d s c t : (s = true -> declaration d (c :: t) = None) -> from d s (c :: t) = from d (Ascii.eqb c nl) t.
Proof. intros H. unfold from at 1. cbn [scan List.length]. destruct s; [rewrite H by reflexivity|]; reflexivity. Qed.
Lemma from_walk d t l : on_line t -> from d false (t ++ nl :: l) = from d true l.
Proof.
  induction t as [|c t IH]; intros H; cbn [app]; rewrite from_step by discriminate; [reflexivity|]. destruct (Ascii.eqb_spec c nl) as [E|_]; [elim H; now left|].
  apply IH. intros X. apply H. now right.
Qed.
Lemma from_end d t : on_line t -> from d false t = [].
Proof.
  induction t as [|c t IH]; intros H; [reflexivity|]. rewrite from_step by discriminate. destruct (Ascii.eqb_spec c nl) as [E|_]; [elim H; now left|].
  apply IH. intros X. apply H. now right.
Qed.
Lemma from_none d t l : on_line t -> declaration d (t ++ nl :: l) = None -> from d true (t ++ nl :: l) = from d true l.
Proof.
  intros H E. destruct t as [|c t]; cbn [app] in *; rewrite from_step by (intros _; exact E); [reflexivity|]. destruct (Ascii.eqb_spec c nl) as [X|_]; [elim H; now left|].
  apply from_walk. intros X. apply H. now right.
Qed.
Lemma white_or l : all_white l \/ exists w c t, all_white w /\ white c = false /\ l = w ++ c :: t.
Proof.
  induction l as [|c t IH]; [left; constructor|]. destruct (white c) eqn:W; [|right; exists [], c, t; repeat split; [constructor|exact W]].
  destruct IH as [A|(w & x & u & A & X & ->)]; [left; now constructor|right]. exists (c :: w), x, u. repeat split; [now constructor|exact X].
Qed.
Lemma line_not d l r : ok d (Line l) -> ~ all_white l -> (r = [] \/ exists r', r = nl :: r') -> declaration d (l ++ r) = None.
Proof.
  intros [O K] N R. destruct (white_or l) as [A|(w & c & t & A & C & ->)]; [contradiction|]. unfold declaration. rewrite <- app_assoc, (skip_white w _ A). cbn [app skip]. rewrite C.
  destruct (after d (word d) (c :: t ++ r)) as [u|] eqn:E; [|reflexivity]. exfalso. destruct (after_split _ _ _ E) as (k & S & X).
  (* the word has no end of line, so that it is in the line *)
  assert (Y : exists v, c :: t = k ++ v).
  { assert (NK : ~ In nl k). { clear -S. destruct d; cbn [spelled] in S; [subst k; cbn; intuition discriminate|]. intros H. apply (in_map lower) in H. rewrite S in H. vm_compute in H. intuition discriminate. }
    clear -X NK R. change ((c :: t) ++ r = k ++ u) in X. revert X. generalize (c :: t). intros x X. revert k NK X. induction x as [|y x IH]; intros k NK X.
    - destruct k as [|z k]; [now exists []|]. exfalso. destruct R as [-> |[r' ->]]; [discriminate|]. cbn in X. injection X as <- _. apply NK. now left.
    - destruct k as [|z k]; [now exists (y :: x)|]. cbn in X. injection X as <- X. destruct (IH k) as [v ->]; [intros H; apply NK; now right|exact X|]. now exists v. }
  destruct Y as [v Y]. apply (K w k v A S). now rewrite Y.
Qed.
Lemma from_line d l r : ok d (Line l) -> from d true (l ++ nl :: r) = from d true r.
Proof.
  intros O. assert (N : on_line l) by (destruct O; assumption). destruct (white_or l) as [A|(w & c & t & A & C & E)].
  - assert (A' : all_white (l ++ [nl])) by (apply Forall_app; split; [exact A|constructor; [reflexivity|constructor]]).
    pose proof (declaration_white d _ r A') as E. rewrite <- app_assoc in E. cbn [app] in E. destruct (declaration d r) as [[a u]|] eqn:F.
    + rewrite (from_match _ _ _ _ E). symmetry. now apply from_match.
    + now apply from_none.
  - apply from_none; [exact N|]. apply (line_not d l); [exact O| |right; now exists r]. intros X. subst l. apply Forall_app in X as [_ X]. inversion X as [|? ? Y _]. congruence.
Qed.
Lemma from_last d l : ok d (Line l) -> from d true l = [].
Proof.
  intros O. assert (N : on_line l) by (destruct O; assumption). destruct l as [|c t]; [destruct d; reflexivity|].
  assert (E : declaration d (c :: t) = None).
  { destruct (white_or (c :: t)) as [A|(w & x & u & A & C & E)].
    - rewrite <- (app_nil_r (c :: t)). rewrite (declaration_white d _ [] A). destruct d; reflexivity.
    - rewrite <- (app_nil_r (c :: t)). apply line_not; [exact O| |now left]. intros X. rewrite E in X. apply Forall_app in X as [_ X]. inversion X as [|? ? Y _]. congruence. }
  rewrite from_step by (intros _; exact E). destruct (Ascii.eqb_spec c nl) as [X|_]; [elim N; now left|]. apply from_end. intros X. apply N. now right.
Qed.
Definition alias_of (x : item) : list text := match x with Decl _ _ _ a _ _ _ _ => [a] | Line _ => [] end.
Lemma rest_on_line b i t : blank b -> iri_text i -> on_line t -> on_line (b ++ "<"%char :: i ++ ">"%char :: t).
Proof.
  intros [_ B] I T H. apply in_app_or in H as [H|[H|H]]; [now apply B|discriminate|]. apply in_app_or in H as [H|[H|H]]; [|discriminate|now apply T].
  unfold iri_text in I. rewrite Forall_forall in I. destruct (I _ H) as [_ X]. discriminate.
Qed.
Lemma from_item d x r : ok d x -> from d true (show x ++ nl :: r) = alias_of x ++ from d true r.
Proof.
  destruct x as [n k g a g2 b i t|l]; [|apply from_line]. intros ([N _] & K & [G _] & G' & A & [G2 _] & B & I & T). cbn [show alias_of app].
  rewrite <- !app_assoc. cbn [app]. rewrite (from_match d _ a ((b ++ "<"%char :: i ++ ">"%char :: t) ++ nl :: r)).
  - f_equal. apply from_walk. now apply rest_on_line.
  - rewrite <- !app_assoc. cbn [app]. rewrite <- !app_assoc. now apply declaration_there.
Qed.
Lemma from_item_end d x : ok d x -> from d true (show x) = alias_of x.
Proof.
  destruct x as [n k g a g2 b i t|l]; [|apply from_last]. intros ([N _] & K & [G _] & G' & A & [G2 _] & B & I & T). cbn [show alias_of].
  rewrite (from_match d _ a (b ++ "<"%char :: i ++ ">"%char :: t)); [|now apply declaration_there]. f_equal. apply from_end. now apply rest_on_line.
Qed.
Lemma declared_lines d l : Forall (ok d) l -> declared d (lines l) = List.concat (List.map alias_of l).
Proof.
  change (declared d (lines l)) with (from d true (lines l)). induction 1 as [|x r O F IH]; [destruct d; reflexivity|]. destruct r as [|y r].
  - cbn [lines List.map List.concat]. rewrite app_nil_r. now apply from_item_end.
  - change (lines (x :: y :: r)) with (show x ++ nl :: lines (y :: r)). rewrite (from_item d x _ O), IH. reflexivity.
Qed.
Lemma declared_spec d l a : Forall (ok d) l -> In a (declared d (lines l)) <-> declared_in l a.
Proof.
  intros F. rewrite (declared_lines d l F). rewrite <- flat_map_concat_map, in_flat_map. split.
  - intros (x & H & X). exists x. destruct x as [? ? ? b ? ? i ?|]; [|destruct X]. destruct X as [->|[]]. exists i. split; [exact H|]. now split.
  - intros (x & i & H & X). exists x. split; [exact H|]. destruct x; [|destruct X]. destruct X as [-> _]. now left.
Qed.
