From Coq Require Import List String Ascii Bool Arith Lia.
Import ListNotations.
From Verif Require Import LdModel LdSpec.
Open Scope list_scope.

Lemma get_put {A} k (v : A) j l : get j (put k v l) = if String.eqb j k then Some v else get j l.
Proof.
  induction l as [|[k' v'] l IH]; cbn; [reflexivity|]. destruct (String.eqb k k') eqn:E; cbn.
  - apply String.eqb_eq in E. subst k'. destruct (String.eqb j k); reflexivity.
  - destruct (String.eqb j k') eqn:F; [|exact IH]. apply String.eqb_eq in F. subst j. rewrite String.eqb_sym, E. reflexivity.
Qed.
Lemma get_merge k b : forall a, get k (merge_prefixes a b) = match last_binding k b with Some v => Some v | None => get k a end.
Proof.
  induction b as [|[k' v] b IH]; intros a; cbn; [reflexivity|]. unfold merge_prefixes in IH. rewrite IH, get_put.
  destruct (last_binding k b); [reflexivity|]. destruct (String.eqb k k'); reflexivity.
Qed.
Lemma last_binding_app k a b : last_binding k (a ++ b) = match last_binding k b with Some v => Some v | None => last_binding k a end.
Proof. induction a as [|[k' v] a IH]; cbn; [destruct (last_binding k b); reflexivity|]. rewrite IH. destruct (last_binding k b); reflexivity. Qed.

Section lib.
Context {L : lib}.
Lemma insert_In t g u : In u (insert t g) <-> u = t \/ In u g.
Proof. unfold insert. destruct (in_dec tdec t g); [split; [auto|intros [->|H]; auto]|]. rewrite in_app_iff. cbn. intuition congruence. Qed.
Lemma feed_right m es : forall g, (m = Strict -> ~ In None es) -> exists g', feed m es g = (true, g') /\ forall t, In t g' <-> In (Some t) es \/ In t g.
Proof.
  induction es as [|[t|] es IH]; intros g H; cbn.
  - exists g. split; [reflexivity|]. tauto.
  - destruct (IH (insert t g)) as (g' & E & R); [intros M N; apply (H M); now right|]. exists g'. split; [exact E|]. intros u. rewrite R, insert_In. intuition congruence.
  - destruct m; [destruct (H eq_refl); now left|]. destruct (IH g) as (g' & E & R); [discriminate|]. exists g'. split; [exact E|]. intros u. rewrite R. intuition congruence.
Qed.
Lemma feed_grows m es : forall g t, In t g -> In t (snd (feed m es g)).
Proof. induction es as [|[u|] es IH]; intros g t H; cbn; auto; [apply IH, insert_In; auto|]. destruct m; auto. Qed.

Lemma start_kept merge r d : start_rdf merge r = Some d -> (merge = true /\ held r = Some (Rdf d)) \/ (init_rdf r = Some d /\ (merge = true -> ~ is_rdf r)).
Proof.
  unfold start_rdf, is_rdf. destruct (held r) as [[x|x]|] eqn:E; [destruct merge|..]; intros H.
  - left. split; congruence.
  - right. split; [exact H|discriminate].
  - right. split; [exact H|]. intros _ (y & F). discriminate.
  - right. split; [exact H|]. intros _ (y & F). discriminate.
Qed.
Lemma init_empty r d : init_rdf r = Some d -> primary d = no_memory /\ used d = [].
Proof. unfold init_rdf. destruct (catalog_of _ _); [|discriminate]. intros E; injection E as <-. auto. Qed.
Lemma start_some merge r : init_rdf r <> None -> exists d, start_rdf merge r = Some d.
Proof.
  intros I. unfold start_rdf. destruct (init_rdf r) as [d|] eqn:E; [|congruence].
  destruct (held r) as [[x|x]|]; [destruct merge|..]; eauto.
Qed.
Definition from (merge : bool) (r : rudof) : rudof := if merge then r else hold None r.
(* one source *)
Lemma read_right f b m merge c r : init_rdf r <> None -> readable r f b m c ->
  exists r', read_rdf f b m merge c r = (Done, r') /\ kept r r' /\ is_rdf r' /\ used_of r' = used_of (from merge r) /\
    (forall t, In t (graph_of r') <-> In t (graph_of (from merge r)) \/ says r f b c t) /\
    (forall k, get k (prefixes_of r') = match last_binding k (declares r f b c) with Some v => Some v | None => get k (prefixes_of (from merge r)) end).
Proof.
  intros I (N1 & N2 & N3 & T & S). destruct (start_some merge r I) as (d & E).
  assert (G : graph_of (from merge r) = graph (primary d) /\ prefixes_of (from merge r) = pm (primary d) /\ used_of (from merge r) = used d).
  { unfold graph_of, prefixes_of, used_of, from. destruct (start_kept _ _ _ E) as [(-> & ->)|(F & N)]; [auto|]. destruct (init_empty _ _ F) as (-> & ->).
    destruct merge; [|auto]. destruct (held r) as [[x|x]|] eqn:H; [|auto..]. destruct (N eq_refl). exists x. exact H. }
  destruct G as (Gg & Gp & Gu). rewrite Gg, Gp, Gu.
  destruct (feed_right m (events f b (given r f c)) (graph (primary d)) S) as (g' & Ef & Rf).
  unfold read_rdf. rewrite E. unfold says, declares, given in *.
  destruct f; try congruence; try (unfold merge_from_reader; rewrite Ef; eexists; split; [reflexivity|];
    split; [repeat split|]; split; [eexists; reflexivity|]; split; [reflexivity|]; split; [intros t; cbn; rewrite Rf; tauto|intros k; reflexivity]).
  destruct (T eq_refl) as (U & D). rewrite U. unfold merge_from_reader. rewrite Ef. destruct (declared b (with_header (defaults r) c)) as [p|] eqn:Ed; [|congruence].
  eexists; split; [reflexivity|]. split; [repeat split|]. split; [eexists; reflexivity|]. split; [reflexivity|]. split; [intros t; cbn; rewrite Rf; tauto|].
  intros k. cbn. apply get_merge.
Qed.
Lemma kept_refl r : kept r r. Proof. repeat split. Qed.
Lemma kept_readable r r' f b m c : kept r r' -> readable r f b m c -> readable r' f b m c.
Proof. intros (D & _ & _). unfold readable, given. rewrite D. auto. Qed.
Lemma kept_init r r' : kept r r' -> init_rdf r' = init_rdf r.
Proof. intros (_ & _ & C). unfold init_rdf. rewrite C. reflexivity. Qed.
Lemma kept_says r r' f b c t : kept r r' -> says r' f b c t <-> says r f b c t.
Proof. intros (D & _ & _). unfold says, given. rewrite D. reflexivity. Qed.
Lemma kept_declares r r' f b c : kept r r' -> declares r' f b c = declares r f b c.
Proof. intros (D & _ & _). unfold declares, given. rewrite D. reflexivity. Qed.
Lemma kept_trans r s t : kept r s -> kept s t -> kept r t.
Proof. unfold kept. intuition congruence. Qed.
Lemma each_right f b m ss cs : Forall2 (fun s c => opened s = Some c) ss cs -> forall r, init_rdf r <> None -> (forall c, In c cs -> readable r f b m c) ->
  exists r', each (read_rdf f b m true) ss r = (Done, r') /\ kept r r' /\ (ss <> [] -> is_rdf r') /\ used_of r' = used_of r /\
    (forall t, In t (graph_of r') <-> In t (graph_of r) \/ exists c, In c cs /\ says r f b c t) /\
    (forall k, get k (prefixes_of r') = match last_binding k (flat_map (declares r f b) cs) with Some v => Some v | None => get k (prefixes_of r) end).
Proof.
  induction 1 as [|s c ss cs O F IH]; intros r I R.
  - exists r. split; [reflexivity|]. split; [apply kept_refl|]. split; [congruence|]. split; [reflexivity|]. split; [|reflexivity].
    intros t. split; [auto|]. intros [H|(c & [] & _)]. exact H.
  - destruct (read_right f b m true c r I (R c (or_introl eq_refl))) as (r1 & E & K & Y & U & G & P). cbn [each]. rewrite O, E.
    destruct (IH r1) as (r' & E' & K' & Y' & U' & G' & P').
    { rewrite (kept_init _ _ K). exact I. } { intros x H. apply (kept_readable r); [exact K|]. apply R. now right. }
    exists r'. split; [exact E'|]. split; [eapply kept_trans; eassumption|]. split.
    { intros _. destruct ss; [cbn in E'; injection E' as <-; exact Y|apply Y'; discriminate]. }
    split; [cbn [from] in U; congruence|]. split.
    + intros t. rewrite G', G. cbn [from]. split.
      * intros [[H|H]|(x & H & S)]; [auto|right; exists c; split; [now left|exact H]|right; exists x; split; [now right|apply (kept_says r r1); assumption]].
      * intros [H|(x & [<-|H] & S)]; [auto|auto|right; exists x; split; [exact H|apply (kept_says r r1); assumption]].
    + intros k. rewrite P', P. cbn [flat_map from]. rewrite last_binding_app.
      replace (flat_map (declares r1 f b) cs) with (flat_map (declares r f b) cs); [destruct (last_binding k (flat_map _ _)); reflexivity|].
      clear - K. induction cs as [|c cs IH]; cbn; [reflexivity|]. rewrite IH, (kept_declares _ _ _ _ _ K). reflexivity.
Qed.
Lemma each_app {A} (read : string -> rudof -> res * rudof) (P : A) ss s r : each read (ss ++ [s]) r =
  match each read ss r with (Done, r) => match opened s with Some c => read c r | None => (Fail, r) end | o => o end.
Proof.
  clear P. revert r. induction ss as [|x ss IH]; intros r; cbn.
  - destruct (opened s); [|reflexivity]. destruct (read s0 r) as [[] ?]; reflexivity.
  - destruct (opened x); [|reflexivity]. destruct (read s0 r) as [[] r1]; [apply IH|reflexivity..].
Qed.
Lemma base_found q r b : base_is q r b -> match in_base q with Some b => if iri_ok b then Some b else None | None => Some (conf_base r) end = Some b.
Proof. unfold base_is. destruct (in_base q); [intros (-> & ->); reflexivity|intros ->; reflexivity]. Qed.
End lib.

(* prefix lines *)
Open Scope string_scope.
Lemma app_assoc_s (a b c : string) : (a ++ b) ++ c = a ++ b ++ c.
Proof. induction a as [|x a IH]; cbn; congruence. Qed.
Lemma app_nil_s (a : string) : a ++ "" = a. Proof. induction a as [|x a IH]; cbn; congruence. Qed.
Lemma every_app f a b : every f (a ++ b) <-> every f a /\ every f b.
Proof. induction a as [|x a IH]; cbn; tauto. Qed.
Arguments space : simpl never.
Lemma white_space c : white c = space c.
Proof. destruct c as [[] [] [] [] [] [] [] []]; reflexivity. Qed.
Lemma trim_left_blank p s : blank p -> trim_left (p ++ s) = trim_left s.
Proof. induction p as [|c p IH]; cbn; [reflexivity|]. intros (W & H). rewrite white_space, W. auto. Qed.
Lemma trim_right_blank p : blank p -> trim_right p = "".
Proof. induction p as [|c p IH]; cbn; [reflexivity|]. intros (W & H). rewrite (IH H), white_space, W. reflexivity. Qed.
Lemma trim_right_app s p : blank p -> trim_right (s ++ p) = trim_right s.
Proof. intros B. induction s as [|c s IH]; cbn; [now apply trim_right_blank|]. rewrite IH. reflexivity. Qed.
Lemma trim_right_end s c : white c = false -> trim_right (s ++ String c "") = s ++ String c "".
Proof.
  intros W. induction s as [|d s IH]; cbn [append trim_right]; [rewrite W; reflexivity|]. rewrite IH. destruct s; reflexivity.
Qed.
Lemma snoc (s : string) : s = "" \/ exists t c, s = t ++ String c "".
Proof. induction s as [|c s [->|(t & d & ->)]]; [auto|right; exists "", c; reflexivity|right; exists (String c t), d; reflexivity]. Qed.
Lemma trim_tight s : tight s -> trim s = s.
Proof.
  intros (A & B). unfold trim. assert (trim_left s = s) as ->. { destruct s as [|c t]; cbn; [reflexivity|]. rewrite white_space, (A c t eq_refl). reflexivity. }
  destruct (snoc s) as [->|(t & c & ->)]; [reflexivity|]. apply trim_right_end. rewrite white_space. exact (B c t eq_refl).
Qed.
Lemma spaces_blank x : every (fun c => c = " "%char) x -> blank x.
Proof. unfold blank. induction x as [|c x IH]; cbn; [auto|]. intros (-> & H). auto. Qed.
Lemma spaces_app x s : every (fun c => c = " "%char) x -> spaces (x ++ s) = spaces s.
Proof. induction x as [|c x IH]; cbn; [reflexivity|]. intros (-> & H). auto. Qed.
Lemma before_gt_right i : before_gt (i ++ ">") = Some i.
Proof. induction i as [|c i IH]; [reflexivity|]. cbn [append before_gt]. rewrite IH. destruct i; reflexivity. Qed.
Lemma spaces_sub f s : every f s -> every f (spaces s).
Proof.
  induction s as [|c s IH]; [auto|]. intros H. destruct (ascii_dec c " ") as [->|N]; [apply IH, H|].
  replace (spaces (String c s)) with (String c s); [exact H|]. destruct c as [[] [] [] [] [] [] [] []]; try reflexivity. congruence.
Qed.
Lemma tail_none s : every (fun c => c <> "<"%char) s -> tail_of s = None.
Proof.
  intros H. unfold tail_of. pose proof (spaces_sub _ _ H) as H1. destruct (spaces s) as [|c t]; [reflexivity|]. destruct H1 as (_ & H1).
  pose proof (spaces_sub _ _ H1) as H2. destruct (ascii_dec c ":") as [->|N].
  - destruct (spaces t) as [|d u]; [reflexivity|]. destruct H2 as (H2 & _). destruct d as [[] [] [] [] [] [] [] []]; try reflexivity. congruence.
  - destruct c as [[] [] [] [] [] [] [] []]; try reflexivity. congruence.
Qed.
Lemma groups_none s : every (fun c => c <> "<"%char) s -> groups s = None.
Proof.
  induction s as [|c s IH]; [reflexivity|]. intros H. cbn [groups]. rewrite (IH (proj2 H)), (tail_none _ H). destruct (Nat.eqb _ _); reflexivity.
Qed.
Lemma groups_spaces y s : every (fun c => c = " "%char) y -> groups s = None -> (forall z, every (fun c => c = " "%char) z -> tail_of (z ++ s) = None) -> groups (y ++ s) = None.
Proof.
  intros Y G T. induction y as [|c y IH]; [exact G|]. cbn [append groups]. rewrite (IH (proj2 Y)).
  change (String c (y ++ s)) with (String c y ++ s). rewrite (T (String c y) Y). destruct (Nat.eqb _ _); reflexivity.
Qed.
Lemma groups_front k s i : one_line k -> groups s = Some ("", i) -> groups (k ++ s) = Some (k, i).
Proof.
  intros O G. induction k as [|c k IH]; [exact G|]. destruct O as (N & O). cbn [append groups].
  destruct (Nat.eqb (nat_of_ascii c) 10) eqn:E; [apply Nat.eqb_eq in E; destruct N; rewrite <- E, ascii_nat_embedding; reflexivity|]. rewrite (IH O). reflexivity.
Qed.
Lemma groups_line y i : every (fun c => c = " "%char) y -> every (fun c => c <> "<"%char) i -> groups (":" ++ y ++ "<" ++ i ++ ">") = Some ("", i).
Proof.
  intros Y I. cbn [append groups]. change (Nat.eqb (nat_of_ascii ":") 10) with false. cbn iota.
  assert (groups (String "<" (i ++ ">")) = None) as N.
  { cbn [groups]. change (Nat.eqb (nat_of_ascii "<") 10) with false. cbn iota. rewrite groups_none; [reflexivity|]. apply every_app. split; [exact I|]. split; [discriminate|exact Logic.I]. }
  rewrite (groups_spaces y _ Y N); [|intros z Z; unfold tail_of; rewrite (spaces_app _ _ Z); reflexivity].
  unfold tail_of. cbn [spaces]. rewrite (spaces_app _ _ Y). cbn [spaces]. rewrite before_gt_right. reflexivity.
Qed.
Lemma no_newline i : one_line i -> has_newline i = false.
Proof.
  induction i as [|c i IH]; [reflexivity|]. intros (N & O). cbn. rewrite (IH O), orb_false_r. apply Nat.eqb_neq. intros E. apply N. rewrite <- E. symmetry. apply ascii_nat_embedding.
Qed.
Lemma one_line_spaces x : every (fun c => c = " "%char) x -> one_line x.
Proof. unfold one_line. induction x as [|c x IH]; cbn; [auto|]. intros (-> & H). split; [discriminate|auto]. Qed.
Section lib.
Context {L : lib}.
Lemma blank_open u : blank u -> every (fun c => c <> "<"%char) u.
Proof. unfold blank. induction u as [|c u IH]; cbn; [auto|]. intros (W & H). split; [intros ->; discriminate W|auto]. Qed.
Lemma trim_within u i v : blank u -> tight i -> blank v -> trim (u ++ i ++ v) = i.
Proof.
  intros U T V. unfold trim. rewrite (trim_left_blank _ _ U). destruct i as [|c i].
  - change ("" ++ v) with v. rewrite <- (app_nil_s v), (trim_left_blank _ _ V). reflexivity.
  - cbn [append trim_left]. rewrite white_space, (proj1 T c i eq_refl). change (String c (i ++ v)) with (String c i ++ v). rewrite (trim_right_app _ _ V).
    pose proof (trim_tight _ T) as E. unfold trim in E. cbn [trim_left] in E. rewrite white_space, (proj1 T c i eq_refl) in E. exact E.
Qed.
Lemma add_prefix_line l k i m : prefix_line l k i -> add_prefix (trim l) m = (if iri_ok i then Some (put k i m) else None) /\ trim l <> "".
Proof.
  intros [a k' x y u j v b A B U Ou V Ov X Y Tk Ok Ti Oj Lj].
  assert (Oi : one_line (u ++ j ++ v)) by (apply every_app; split; [exact Ou|apply every_app; auto]).
  assert (Li : every (fun c => c <> "<"%char) (u ++ j ++ v)) by (apply every_app; split; [now apply blank_open|apply every_app; split; [exact Lj|now apply blank_open]]).
  pose proof (trim_within u j v U Ti V) as W. remember (u ++ j ++ v) as i' eqn:Ei.
  assert (exists x', every (fun c => c = " "%char) x' /\ trim (a ++ k' ++ x ++ ":" ++ y ++ "<" ++ i' ++ ">" ++ b) = k' ++ x' ++ ":" ++ y ++ "<" ++ i' ++ ">") as (x' & X' & ->).
  { assert (R : forall z, trim_right (z ++ ":" ++ y ++ "<" ++ i' ++ ">" ++ b) = z ++ ":" ++ y ++ "<" ++ i' ++ ">").
    { intros z. replace (z ++ ":" ++ y ++ "<" ++ i' ++ ">" ++ b) with (((z ++ ":" ++ y ++ "<" ++ i') ++ ">") ++ b) by (rewrite !app_assoc_s; reflexivity).
      rewrite (trim_right_app _ _ B), trim_right_end; [|reflexivity]. rewrite !app_assoc_s. reflexivity. }
    unfold trim. rewrite (trim_left_blank _ _ A). destruct k' as [|c k'].
    - exists "". split; [exact Logic.I|]. change ("" ++ x ++ ":" ++ y ++ "<" ++ i' ++ ">" ++ b) with (x ++ ":" ++ y ++ "<" ++ i' ++ ">" ++ b).
      rewrite (trim_left_blank _ _ (spaces_blank _ X)). exact (R "").
    - exists x. split; [exact X|]. cbn [append trim_left]. rewrite white_space, (proj1 Tk c k' eq_refl). rewrite <- app_assoc_s.
      etransitivity; [exact (R (String c (k' ++ x)))|]. cbn [append]. rewrite app_assoc_s. reflexivity. }
  split; [|destruct k'; [destruct x'|]; discriminate].
  unfold add_prefix, captures. rewrite <- app_assoc_s. rewrite (groups_front (k' ++ x') _ i'); [|apply every_app; split; [exact Ok|now apply one_line_spaces]|apply groups_line; assumption].
  rewrite (no_newline _ Oi), W. replace (trim (k' ++ x')) with k'; [reflexivity|].
  unfold trim. destruct k' as [|c k'].
  - change ("" ++ x') with x'. rewrite <- (app_nil_s x'), (trim_left_blank _ _ (spaces_blank _ X')). reflexivity.
  - cbn [append trim_left]. rewrite white_space, (proj1 Tk c k' eq_refl). change (String c (k' ++ x')) with (String c k' ++ x'). rewrite (trim_right_app _ _ (spaces_blank _ X')).
    pose proof (trim_tight _ Tk) as T. unfold trim in T. cbn [trim_left] in T. rewrite white_space, (proj1 Tk c k' eq_refl) in T. congruence.
Qed.
Lemma add_lines_right ls ps : prefix_lines ls ps -> forall m, (forall k i, In (k, i) ps -> iri_ok i = true) -> add_lines ls m = Some (merge_prefixes m ps).
Proof.
  induction 1 as [|l ls ps B H IH|l k i ls ps P H IH]; intros m O; [reflexivity|..].
  - cbn [add_lines]. assert (trim l = "") as ->; [|auto]. unfold trim. rewrite <- (app_nil_s l), (trim_left_blank _ _ B). reflexivity.
  - cbn [add_lines]. destruct (add_prefix_line l k i m P) as (E & N). destruct (trim l) eqn:T; [congruence|]. rewrite E.
    rewrite (O k i (or_introl eq_refl)). apply IH. intros k' i' I. exact (O k' i' (or_intror I)).
Qed.
End lib.
Lemma lines_one l : one_line l -> lines l = [l].
Proof.
  induction l as [|c l IH]; [reflexivity|]. intros (N & O). cbn [lines]. rewrite (IH O).
  destruct (Nat.eqb (nat_of_ascii c) 10) eqn:E; [apply Nat.eqb_eq in E; destruct N; rewrite <- E, ascii_nat_embedding; reflexivity|reflexivity].
Qed.
Lemma lines_cons l s : one_line l -> lines (l ++ String (ascii_of_nat 10) s) = l :: lines s.
Proof.
  induction l as [|c l IH]; [reflexivity|]. intros (N & O). cbn [append lines]. rewrite (IH O).
  destruct (Nat.eqb (nat_of_ascii c) 10) eqn:E; [apply Nat.eqb_eq in E; destruct N; rewrite <- E, ascii_nat_embedding; reflexivity|reflexivity].
Qed.
Lemma lines_joined ls : ls <> [] -> (forall l, In l ls -> one_line l) -> lines (joined ls) = ls.
Proof.
  induction ls as [|l ls IH]; intros N O; [congruence|]. destruct ls as [|l' ls].
  - apply lines_one, O. now left.
  - change (joined (l :: l' :: ls)) with (l ++ String (ascii_of_nat 10) (joined (l' :: ls))). rewrite lines_cons; [|apply O; now left].
    f_equal. apply IH; [discriminate|]. intros x I. apply O. now right.
Qed.
