(* Facts about writing and reading CSV and about shown terms. *)
From Coq Require Import List String Ascii Bool Arith Lia.
Import ListNotations.
From Verif Require Import QtModel QtSpec.
Open Scope list_scope.

Definition ends (c : ascii) : Prop := c = ","%char \/ c = nl.
Definition following (f : text) (r : list text) (c : ascii) (l : text) : option (list (list text)) :=
  if Ascii.eqb c ","%char then read Before [] (f :: r) l else match read Before [] [] l with Some t => Some (rev (f :: r) :: t) | None => None end.
Lemma quoted_walk f : forall g r l, read Quoted g r (flat_map (fun c => if Ascii.eqb c quote then [quote; quote] else [c]) f ++ quote :: l) = read AfterQuote (rev f ++ g) r l.
Proof.
  induction f as [|c f IH]; intros g r l; [reflexivity|]. cbn [flat_map rev]. destruct (Ascii.eqb_spec c quote) as [->|N].
  - cbn [app read]. change (Ascii.eqb quote quote) with true. cbv iota. rewrite IH. now rewrite <- app_assoc.
  - cbn [app read]. destruct (Ascii.eqb_spec c quote); [contradiction|]. rewrite IH. now rewrite <- app_assoc.
Qed.
Lemma inside_walk f : forall g r c l, existsb special f = false -> ends c -> read Inside g r (f ++ c :: l) = following (rev g ++ f) r c l.
Proof.
  induction f as [|x f IH]; intros g r c l S E.
  - cbn [app]. rewrite app_nil_r. unfold following. destruct E as [-> | ->]; reflexivity.
  - cbn [existsb] in S. apply orb_false_iff in S as [S1 S2]. unfold special in S1. rewrite !orb_false_iff in S1. destruct S1 as [[[A B] C] D].
    cbn [app read]. rewrite A, B, C. cbn [orb]. rewrite (IH (x :: g) r c l S2 E). cbn [rev]. now rewrite <- app_assoc.
Qed.
Lemma read_field f r c l : ends c -> f <> [] \/ r <> [] \/ c = ","%char -> read Before [] r (field f ++ c :: l) = following f r c l.
Proof.
  intros E O. unfold field. destruct (existsb special f) eqn:S.
  - cbn [app read]. change (Ascii.eqb quote quote) with true. cbv iota. rewrite <- app_assoc. cbn [app]. rewrite quoted_walk, app_nil_r. unfold following.
    destruct E as [-> | ->]; cbn [read]; [change (Ascii.eqb "," quote)%char with false|change (Ascii.eqb nl quote) with false]; cbv iota; cbn; now rewrite rev_involutive.
  - destruct f as [|x f]; [unfold following; destruct E as [-> | ->]; [reflexivity|]; destruct r; [destruct O as [O|[O|O]]; [congruence|congruence|discriminate O]|reflexivity]|]. cbn [existsb] in S. apply orb_false_iff in S as [S1 S2]. unfold special in S1. rewrite !orb_false_iff in S1.
    destruct S1 as [[[A B] C] D]. cbn [app read]. rewrite A, B, C. cbn [orb andb]. now rewrite (inside_walk f [x] r c l S2 E).
Qed.
Lemma read_fields l : l <> [] -> forall r rest, fields l <> [] \/ r <> [] -> read Before [] r (fields l ++ nl :: rest) = match read_csv rest with Some t => Some ((rev r ++ l) :: t) | None => None end.
Proof.
  induction l as [|f l IH]; intros N r rest O; [congruence|]. destruct l as [|g l].
  - cbn [fields] in *. rewrite read_field; [reflexivity|now right|]. destruct O as [O|O]; [left; intros ->; now apply O|tauto].
  - change (fields (f :: g :: l)) with (field f ++ ","%char :: fields (g :: l)). rewrite <- app_assoc. cbn [app]. rewrite read_field; [|now left|tauto]. unfold following. cbn [Ascii.eqb].
    change (Ascii.eqb "," ",")%char with true. cbv iota. rewrite IH; [|discriminate|right; discriminate]. cbn [rev]. now rewrite <- app_assoc.
Qed.
Lemma read_record l rest : l <> [] -> read_csv (csv_record l ++ rest) = match read_csv rest with Some t => Some (l :: t) | None => None end.
Proof.
  intros N. unfold csv_record. rewrite <- app_assoc. cbn [app]. destruct (fields l) as [|c t] eqn:E.
  - assert (X : l = [[]]).
    { destruct l as [|f [|g l]]; [congruence| |].
      - cbn [fields] in E. unfold field in E. destruct (existsb special f); [discriminate|now subst f].
      - change (fields (f :: g :: l)) with (field f ++ ","%char :: fields (g :: l)) in E. now destruct (field f). }
    rewrite X. reflexivity.
  - rewrite <- E. apply (read_fields l N [] rest). left. rewrite E. discriminate.
Qed.
Lemma read_records n l : n <> 0 -> Forall (fun r => List.length r = n) l -> exists t, csv_records n l = Some t /\ read_csv t = Some l.
Proof.
  intros N. induction 1 as [|r l E F (t & T & R)]; [exists []; now split|]. cbn [csv_records]. rewrite E, Nat.eqb_refl, T. eexists. split; [reflexivity|].
  rewrite read_record by (destruct r; [now elim N|discriminate]). now rewrite R.
Qed.

(* records *)
Lemma find_value vs : NoDup vs -> forall ts n v, List.length ts = List.length vs -> nth_error vs n = Some v -> (match nth_error ts n with Some t => t | None => None end) = value_of vs ts v.
Proof.
  induction 1 as [|w vs N D IH]; intros ts n v E H; [now destruct n|]. destruct ts as [|t ts]; [discriminate|]. destruct n as [|n]; cbn [nth_error value_of] in *.
  - injection H as ->. destruct (text_dec v v); [reflexivity|contradiction].
  - destruct (text_dec v w) as [->|X]; [elim N; now apply nth_error_In in H|]. apply IH; [now injection E|exact H].
Qed.
Lemma map_seq {A B} (f : nat -> B) (g : A -> B) l : forall k, (forall n x, nth_error l n = Some x -> f (k + n) = g x) -> List.map f (seq k (List.length l)) = List.map g l.
Proof.
  induction l as [|x l IH]; intros k H; [reflexivity|]. cbn [List.length seq List.map]. f_equal; [rewrite <- (Nat.add_0_r k); now apply H|].
  apply IH. intros n y E. rewrite Nat.add_succ_comm. now apply H.
Qed.
Lemma record_values m s : NoDup (variables s) -> List.length (values s) = List.length (variables s) ->
  record m s = List.map (fun v => cell m (value_of (variables s) (values s) v)) (variables s).
Proof. intros D E. unfold record. apply map_seq. intros n v H. cbn. unfold find. now rewrite (find_value _ D _ _ _ E H). Qed.

(* shown terms *)
Lemma first_split (k : ascii) a : forall b r s, ~ In k a -> ~ In k b -> a ++ k :: r = b ++ k :: s -> a = b /\ r = s.
Proof.
  induction a as [|x a IH]; intros [|y b] r s A B E; cbn [app] in E.
  - injection E as ->. now split.
  - injection E as -> _. elim B. now left.
  - injection E as -> _. elim A. now left.
  - injection E as -> E. apply IH in E as [-> ->]; [now split| |]; intros X; [apply A|apply B]; now right.
Qed.
Lemma last_split (k : ascii) a b r s : ~ In k r -> ~ In k s -> a ++ k :: r = b ++ k :: s -> a = b /\ r = s.
Proof.
  intros R S E. assert (X : rev r ++ k :: rev a = rev s ++ k :: rev b).
  { apply (f_equal (@rev ascii)) in E. rewrite !rev_app_distr in E. cbn [rev] in E. now rewrite <- !app_assoc in E. }
  apply first_split in X as [X Y]; [|now rewrite <- in_rev|now rewrite <- in_rev].
  split; [rewrite <- (rev_involutive a), Y; apply rev_involutive|rewrite <- (rev_involutive r), X; apply rev_involutive].
Qed.
Lemma strip_some p : forall l r, strip p l = Some r -> l = p ++ r.
Proof. induction p as [|a p IH]; intros l r H; cbn [strip] in H; [now injection H|]. destruct l as [|b l]; [discriminate|]. destruct (ascii_dec a b) as [->|]; [|discriminate]. cbn. f_equal. now apply IH. Qed.
Lemma longest_in m i : forall best a r, longest m i best = Some (a, r) -> best = Some (a, r) \/ exists n, In (a, n) m /\ i = n ++ r.
Proof.
  induction m as [|[b n] m IH]; intros best a r H; cbn [longest] in H; [now left|]. destruct (strip n i) as [s|] eqn:E.
  - apply strip_some in E. apply IH in H as [H|(k & K & X)]; [|right; exists k; split; [now right|exact X]]. destruct best as [[c q]|].
    + destruct (List.length q <? List.length s); [now left|]. injection H as <- <-. right. exists n. split; [now left|exact E].
    + injection H as <- <-. right. exists n. split; [now left|exact E].
  - apply IH in H as [H|(k & K & X)]; [now left|right; exists k; split; [now right|exact X]].
Qed.
Lemma qualified m i : (exists a n r, In (a, n) m /\ i = n ++ r /\ qualify m i = a ++ ":"%char :: r) \/ qualify m i = "<"%char :: i ++ [">"%char].
Proof.
  unfold qualify. destruct (longest m i None) as [[a r]|] eqn:E; [left|now right]. apply longest_in in E as [E|(n & N & X)]; [discriminate|]. now exists a, n, r.
Qed.
Lemma alias_in m a n : good m -> In (a, n) m -> alias_ok a.
Proof. intros [_ F] H. rewrite Forall_forall in F. exact (F _ H). Qed.
Lemma alias_once m a n k : good m -> In (a, n) m -> In (a, k) m -> n = k.
Proof.
  intros [D _]. revert D. induction m as [|[b x] m IH]; intros D N K; [destruct N|]. cbn in D. inversion D as [|? ? X D']; subst.
  destruct N as [N|N], K as [K|K]; [congruence| | |now apply IH]; exfalso; apply X; [injection N as -> ->|injection K as -> ->]; apply in_map_iff; [now exists (a, k)|now exists (a, n)].
Qed.
Lemma start m i : good m -> exists c t, qualify m i = c :: t /\ c <> quote.
Proof.
  intros G. destruct (qualified m i) as [(a & n & r & I & _ & ->)| ->]; [|do 2 eexists; split; [reflexivity|discriminate]]. destruct (alias_in m a n G I) as (_ & _ & Q & _).
  destruct a as [|c a]; do 2 eexists; (split; [reflexivity|]); [discriminate|exact Q].
Qed.
Lemma mixed m a n r i : good m -> In (a, n) m -> a ++ ":"%char :: r <> "<"%char :: i.
Proof. intros G I E. destruct (alias_in m a n G I) as (_ & A & _). destruct a as [|c a]; [discriminate|]. injection E as -> _. now elim A. Qed.
Lemma qualify_inj m i j : good m -> qualify m i = qualify m j -> i = j.
Proof.
  intros G. destruct (qualified m i) as [(a & n & r & I & -> & ->)| ->], (qualified m j) as [(b & k & s & J & -> & ->)| ->]; intros E.
  - apply first_split in E as [-> ->]; [|exact (proj1 (alias_in m a n G I))|exact (proj1 (alias_in m b k G J))]. now rewrite (alias_once m b n k G I J).
  - now apply (mixed m a n) in E.
  - symmetry in E. now apply (mixed m b k) in E.
  - injection E as E. now apply app_inj_tail in E as [-> _].
Qed.
Lemma qualify_blank m i b : good m -> qualify m i <> chars "_:" ++ b.
Proof.
  intros G E. destruct (qualified m i) as [(a & n & r & I & _ & X)|X]; rewrite X in E; [|discriminate]. destruct (alias_in m a n G I) as (C & _ & _ & U).
  change (a ++ ":"%char :: r = chars "_" ++ ":"%char :: b) in E. apply first_split in E as [-> _]; [now elim U|exact C|cbn; intuition discriminate].
Qed.
Lemma basic_good : good basic.
Proof.
  split; [repeat constructor; cbn; intuition discriminate|]. unfold basic. repeat constructor; cbn; try discriminate; intuition discriminate.
Qed.
Lemma qualify_quote d : ~ In quote d -> ~ In quote (qualify basic d).
Proof.
  intros D. destruct (qualified basic d) as [(a & n & r & I & -> & ->)| ->].
  - intros X. apply in_app_or in X as [X|[X|X]]; [|discriminate|apply D, in_or_app; now right]. clear -I X.
    assert (F : Forall (fun x : text * text => ~ In quote (fst x)) basic) by (unfold basic; repeat constructor; cbn; intuition discriminate).
    rewrite Forall_forall in F. exact (F _ I X).
  - intros [X|X]; [discriminate|]. apply in_app_or in X as [X|[X|[]]]; [contradiction|discriminate].
Qed.
(* plain literals: a text in quotes and something without quotes *)
Lemma plain_literal l : plain (Lit l) -> exists x s, show_literal basic l = quote :: x ++ quote :: s /\ ~ In quote s /\
  (l = Str x None /\ s = [] \/ (exists g, l = Str x (Some g) /\ s = "@"%char :: g) \/ exists d, l = Typed x d /\ s = "^"%char :: "^"%char :: qualify basic d).
Proof.
  destruct l as [x [g|]|x d|x d|k s|b|s]; cbn [plain]; intros P; try contradiction.
  - exists x, ("@"%char :: g). split; [reflexivity|]. split; [intros [X|X]; [discriminate|contradiction]|]. right. left. now exists g.
  - exists x, []. split; [reflexivity|]. split; [intros []|]. now left.
  - exists x, ("^"%char :: "^"%char :: qualify basic d). split; [reflexivity|]. split; [intros [X|[X|X]]; [discriminate|discriminate|now apply qualify_quote in X]|]. right. right. now exists d.
Qed.
Lemma qualify_colon m i : good m -> ~ In ":"%char (qualify m i) -> hd " "%char (qualify m i) = "<"%char.
Proof. intros G N. destruct (qualified m i) as [(a & n & r & _ & _ & E)|E]; rewrite E in *; [|reflexivity]. elim N. apply in_or_app. right. now left. Qed.
Lemma bound_put m a i b : bound (put m a i) b = if text_dec b a then Some i else bound m b.
Proof.
  induction m as [|[c j] m IH]; cbn [put bound]; [reflexivity|]. destruct (text_dec a c) as [->|N]; cbn [bound].
  - now destruct (text_dec b c).
  - destruct (text_dec b c) as [->|M]; [destruct (text_dec c a); [congruence|reflexivity]|exact IH].
Qed.
