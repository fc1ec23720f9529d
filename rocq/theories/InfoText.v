(* Lemmas about the lines of a tree and reading them back. *)
From Coq Require Import List String Ascii Bool NArith Arith Wf_nat Lia Permutation.
Import ListNotations.
From Verif Require Import NbModel NbSpec InfoModel InfoSpec InfoLemmas.
Open Scope list_scope.

(* White space *)
Lemma white_true c : white c = true <-> In c spaces.
Proof.
  unfold white. rewrite !orb_true_iff, !andb_true_iff, !N.leb_le, !N.eqb_eq. unfold spaces. cbn [In]. split; [|intuition lia].
  intros H. assert (A : (c = 9 \/ c = 10 \/ c = 11 \/ c = 12 \/ c = 13 \/ c = 32 \/ c = 133 \/ c = 160 \/ c = 5760 \/
    8192 <= c <= 8202 \/ c = 8232 \/ c = 8233 \/ c = 8239 \/ c = 8287 \/ c = 12288)%N) by lia. clear H.
  assert (B : (8192 <= c <= 8202 -> c = 8192 \/ c = 8193 \/ c = 8194 \/ c = 8195 \/ c = 8196 \/ c = 8197 \/ c = 8198 \/ c = 8199 \/ c = 8200 \/ c = 8201 \/ c = 8202)%N) by lia.
  intuition auto 30.
Qed.
Lemma white_false c : white c = false <-> ~ In c spaces.
Proof. rewrite <- white_true. destruct (white c); split; congruence. Qed.
Lemma trim_start_white x y : (forall c, In c x -> white c = true) -> trim_start (x ++ y) = trim_start y.
Proof. induction x as [|c x IH]; cbn; intros H; [reflexivity|]. rewrite (H c (or_introl eq_refl)). apply IH. auto. Qed.
Lemma trim_start_head c x : white c = false -> trim_start (c :: x) = c :: x.
Proof. cbn. now intros ->. Qed.
Lemma trim_well x : ends_well x -> trim_start x = x /\ trim x = x.
Proof.
  intros (a & l & b & A & B & [-> | ->]); apply white_false in A; apply white_false in B; unfold trim.
  - rewrite trim_start_head by exact A. split; [reflexivity|]. cbn. now rewrite A.
  - rewrite trim_start_head by exact A. split; [reflexivity|].
    change (a :: l ++ [b]) with ((a :: l) ++ [b]). rewrite rev_app_distr. cbn [rev app]. rewrite trim_start_head by exact B.
    cbn. rewrite rev_app_distr, rev_involutive. reflexivity.
Qed.
Lemma trim_white x y : (forall c, In c x -> white c = true) -> ends_well y -> trim (x ++ y) = y.
Proof. intros H W. unfold trim. rewrite trim_start_white by exact H. exact (proj2 (trim_well y W)). Qed.
Lemma trim_start_keeps c x : white c = false -> In c x -> In c (trim_start x).
Proof. intros W. induction x as [|d x IH]; cbn; [auto|]. destruct (white d) eqn:E; [|auto]. intros [->|H]; [congruence|auto]. Qed.
Lemma trim_keeps c x : white c = false -> In c x -> In c (trim x).
Proof. intros W H. unfold trim. apply -> in_rev. apply trim_start_keeps; [exact W|]. apply -> in_rev. now apply trim_start_keeps. Qed.
Lemma trim_start_only c x : In c (trim_start x) -> In c x.
Proof. induction x as [|d x IH]; cbn; [auto|]. destruct (white d); auto. Qed.
Lemma trim_only c x : In c (trim x) -> In c x.
Proof. unfold trim. intros H. apply in_rev in H. apply trim_start_only in H. apply in_rev in H. now apply trim_start_only in H. Qed.
Lemma well_nonempty x : ends_well x -> x <> [].
Proof. intros (a & l & b & _ & _ & [-> | ->]); discriminate. Qed.

(* Lines *)
Lemma split_line l k acc : ~ In nl l -> split_lines (l ++ nl :: k) acc = no_cr (rev acc ++ l) :: split_lines k [].
Proof.
  revert acc. induction l as [|c l IH]; intros acc H; cbn [app split_lines].
  - rewrite N.eqb_refl, app_nil_r. reflexivity.
  - destruct (N.eqb c nl) eqn:E; [apply N.eqb_eq in E; subst; destruct H; now left|]. rewrite IH by (intros X; apply H; now right).
    cbn. rewrite <- app_assoc. reflexivity.
Qed.
Definition line (l : text) : Prop := ~ In nl l /\ no_cr l = l.
Lemma split_ended ls k : Forall line ls -> split_lines (ended ls ++ k) [] = ls ++ split_lines k [].
Proof.
  intros F. induction F as [|l ls [H C] F IH]; [reflexivity|]. cbn [ended flat_map app].
  change (flat_map (fun l => l ++ [nl]) ls) with (ended ls). rewrite <- !app_assoc. cbn [app]. rewrite split_line by exact H. cbn. now rewrite C, IH.
Qed.
Lemma no_cr_well x y : ends_well y -> no_cr (x ++ y) = x ++ y.
Proof.
  intros (a & l & b & A & B & [-> | ->]); unfold no_cr.
  - rewrite rev_app_distr. cbn. destruct (N.eqb a cr) eqn:E; [|reflexivity]. apply N.eqb_eq in E. subst. destruct A. unfold spaces, cr. cbn. auto 10.
  - change (a :: l ++ [b]) with ((a :: l) ++ [b]). rewrite app_assoc, rev_app_distr. cbn.
    destruct (N.eqb b cr) eqn:E; [|reflexivity]. apply N.eqb_eq in E. subst. destruct B. unfold spaces, cr. cbn. auto 10.
Qed.

(* The delimiter *)
Fixpoint quiet (x : text) : Prop := match x with c :: ((d :: _) as l) => ~ (c = sp /\ d = bar) /\ quiet l | _ => True end.
Lemma quiet_cons c x : quiet x -> (c = sp -> forall d l, x = d :: l -> d <> bar) -> quiet (c :: x).
Proof. destruct x as [|d l]; cbn; [auto|]. intros Q H. split; [|exact Q]. intros [-> ->]. exact (H eq_refl bar l eq_refl eq_refl). Qed.
Lemma strip_prefix_app d x : strip_prefix d (d ++ x) = Some x.
Proof. induction d as [|c d IH]; cbn; [reflexivity|]. now rewrite N.eqb_refl. Qed.
Lemma split_quiet d x y : quiet x -> split_once (sp :: bar :: d) (x ++ sp :: bar :: d ++ y) = Some (x, y).
Proof.
  induction x as [|c x IH]; intros Q.
  - change ([] ++ sp :: bar :: d ++ y) with ((sp :: bar :: d) ++ y). pose proof (strip_prefix_app (sp :: bar :: d) y) as E.
    cbn [app] in *. cbn [split_once]. rewrite E. reflexivity.
  - assert (Q' : quiet x) by (destruct x; [exact Logic.I|exact (proj2 Q)]).
    cbn [app split_once]. assert (E : strip_prefix (sp :: bar :: d) (c :: x ++ sp :: bar :: d ++ y) = None).
    { cbn [strip_prefix]. destruct (N.eqb sp c) eqn:E; [|reflexivity]. apply N.eqb_eq in E. subst c.
      destruct x as [|e x]; cbn [app]; [reflexivity|]. destruct (N.eqb bar e) eqn:F; [|reflexivity].
      apply N.eqb_eq in F. subst e. destruct Q as [Q _]. destruct Q. auto. }
    rewrite E, (IH Q'). reflexivity.
Qed.
Lemma split_absent d x : ~ In bar x -> split_once (sp :: bar :: d) x = None.
Proof.
  induction x as [|c x IH]; intros H; [reflexivity|]. cbn [split_once].
  assert (E : strip_prefix (sp :: bar :: d) (c :: x) = None).
  { cbn [strip_prefix]. destruct (N.eqb sp c); [|reflexivity]. destruct x as [|e x]; [reflexivity|]. destruct (N.eqb bar e) eqn:F; [|reflexivity].
    apply N.eqb_eq in F. subst e. destruct H. cbn. auto. }
  rewrite E, IH; [reflexivity|]. intros X. apply H. now right.
Qed.
Lemma delimiter_is w : exists d, delimiter w = sp :: bar :: d.
Proof. destruct w; eexists; reflexivity. Qed.

(* A line of a tree *)
Section lines.
Context {L : lib}.
Definition item (last : bool) : N := if last then final else middle.
Definition left_of (above : list bool) (last : bool) (p : string) : text := skips above ++ item last :: bar :: bar :: bar :: sp :: show_pred p.
Definition line_of (w : way) (above : list bool) (last : bool) (p : string) (t : term) : text :=
  left_of above last p ++ delimiter w ++ show_term t.
Lemma line_of_is w above (last : bool) p t : skips above ++ [if last then final else middle; bar; bar] ++ label w p t = line_of w above last p t.
Proof. unfold line_of, left_of, label, item. rewrite <- !app_assoc. cbn. rewrite <- ?app_assoc. reflexivity. Qed.
Lemma lines_of_is w above last p t rest : lines_of w above last (Info p t rest) = line_of w above last p t :: all_lines w (above ++ [last]) rest.
Proof.
  cbn [lines_of]. rewrite line_of_is. f_equal. induction rest as [|x l IH]; [reflexivity|]. cbn [all_lines]. now rewrite <- IH.
Qed.
Lemma entries_is above p t rest last : entries above (Info p t rest) last = (p, t, above) :: all_entries (above ++ [last]) rest.
Proof. cbn [entries]. f_equal. induction rest as [|x l IH]; [reflexivity|]. cbn [all_entries]. now rewrite <- IH. Qed.
Lemma skips_chars above c : In c (skips above) -> c = skip \/ c = sp.
Proof.
  unfold skips. rewrite in_flat_map. intros (b & _ & H). destruct b; cbn in H; intuition.
Qed.
Lemma skips_quiet above y : quiet y -> (forall d l, y = d :: l -> d <> bar) -> quiet (skips above ++ y).
Proof.
  intros Q H. assert (S : forall x : text, (forall c, In c x -> c = skip \/ c = sp) -> quiet (x ++ y) /\ forall d l, x ++ y = d :: l -> d <> bar).
  { induction x as [|c x IH]; intros X; [auto|]. destruct (IH (fun c I => X c (or_intror I))) as [A B]. split.
    - cbn [app]. apply quiet_cons; [exact A|]. intros _. exact B.
    - intros d l [= <- _]. destruct (X c (or_introl eq_refl)) as [-> | ->]; discriminate. }
  exact (proj1 (S _ (skips_chars above))).
Qed.
Lemma no_bar_quiet x : ~ In bar x -> quiet x.
Proof.
  induction x as [|c x IH]; intros H; [exact Logic.I|]. apply quiet_cons; [apply IH; intros X; apply H; now right|].
  intros _ d l -> ->. apply H. cbn. auto.
Qed.
Lemma plain_no_bar p : plain p -> ~ In bar (show_pred p).
Proof. intros [_ P] H. apply (P _ H). left. reflexivity. Qed.
Lemma left_quiet above last p : plain p -> quiet (left_of above last p).
Proof.
  intros P. pose proof (plain_no_bar _ P) as B. unfold left_of. apply skips_quiet.
  - assert (I : item last <> sp) by (destruct last; discriminate).
    apply quiet_cons; [|intros E; contradiction].
    do 3 (apply quiet_cons; [|discriminate]). apply quiet_cons; [now apply no_bar_quiet|].
    intros _ d l E ->. apply B. rewrite E. now left.
  - intros d l [= <- _]. destruct last; discriminate.
Qed.
Lemma glyph_drawn c : glyph c = true <-> drawn c.
Proof. unfold glyph, drawn. rewrite !orb_true_iff, !N.eqb_eq. unfold skip, middle, final, bar. tauto. Qed.
Lemma filter_all {A} (f : A -> bool) l : (forall x, In x l -> f x = true) -> filter f l = l.
Proof. induction l as [|a l IH]; cbn; intros H; [reflexivity|]. rewrite (H a (or_introl eq_refl)). f_equal. auto. Qed.
Lemma strip_left above last p : plain p -> strip_glyphs (left_of above last p) = show_pred p.
Proof.
  intros [[_ W] P]. unfold strip_glyphs, left_of. rewrite filter_app. cbn [filter].
  assert (G : glyph (item last) = true) by (destruct last; reflexivity). rewrite G. cbn [negb].
  replace (glyph bar) with true by reflexivity. replace (glyph sp) with false by reflexivity. cbn [negb].
  rewrite (filter_all _ (show_pred p)).
  - change (sp :: show_pred p) with ([sp] ++ show_pred p). rewrite app_assoc. apply trim_white; [|exact W].
    intros c H. apply in_app_iff in H. destruct H as [H|[<-|[]]]; [|reflexivity]. apply filter_In in H. destruct H as [H E].
    apply skips_chars in H. destruct H as [-> | ->]; [discriminate E|reflexivity].
  - intros c H. destruct (glyph c) eqn:E; [|reflexivity]. apply glyph_drawn in E. destruct (P c H E).
Qed.
Lemma depth_bound n : forall x c r, List.length x <= n -> c <> sp -> c <> skip -> 4 * tree_depth (x ++ c :: r) <= List.length x.
Proof.
  induction n as [n IH] using lt_wf_ind. intros x c r Hn A B.
  assert (Es : N.eqb c sp = false) by (now apply N.eqb_neq). assert (Ek : N.eqb c skip = false) by (now apply N.eqb_neq).
  destruct x as [|x1 [|x2 [|x3 [|x4 x]]]]; cbn [app].
  - destruct r as [|r1 [|r2 [|r3 r]]]; cbn [tree_depth]; rewrite ?Es, ?Ek; cbn; lia.
  - destruct r as [|r1 [|r2 r]]; cbn [tree_depth]; rewrite ?Es, ?Ek, ?andb_false_r; cbn; rewrite ?andb_false_r; cbn; lia.
  - destruct r as [|r1 r]; cbn [tree_depth]; rewrite ?Es, ?Ek, ?andb_false_r; cbn; rewrite ?andb_false_r; cbn; lia.
  - cbn [tree_depth]. rewrite Es, andb_false_r. lia.
  - cbn [tree_depth]. cbn [List.length] in *. destruct (_ && _); [|lia]. pose proof (IH (List.length x) ltac:(lia) x c r (le_n _) A B). lia.
Qed.
Lemma skips_length above : List.length (skips above) <= 4 * List.length above.
Proof. induction above as [|b above IH]; cbn; [lia|]. change (flat_map _ above) with (skips above). destruct b; cbn; lia. Qed.
Lemma depth_middle above r : ~ In true above -> (forall c l, r = c :: l -> c <> sp /\ c <> skip) -> tree_depth (skips above ++ r) = List.length above + tree_depth r.
Proof.
  intros H R. induction above as [|b above IH]; [reflexivity|]. destruct b; [destruct H; now left|].
  cbn [skips flat_map app]. change (flat_map _ above) with (skips above). cbn [tree_depth].
  cbn [List.length]. rewrite IH by (intros X; apply H; now right). reflexivity.
Qed.
Lemma depth_item last y : tree_depth (item last :: y) = 0.
Proof. destruct y as [|a [|b [|c y]]]; try reflexivity. cbn [tree_depth]. destruct last; reflexivity. Qed.
Lemma parse_line_right w above last p t : plain p -> one_line (show_term t) ->
  exists a, parse_line w (line_of w above last p t) = Some a /\ reads (p, t, above) a.
Proof.
  intros P [_ T]. unfold parse_line. destruct (delimiter_is w) as (d & E). unfold line_of. rewrite E. cbn [app].
  rewrite split_quiet by (now apply left_quiet). rewrite strip_left by exact P. rewrite (proj2 (trim_well _ T)).
  destruct (show_pred p) as [|c pt] eqn:Ep; [destruct P as [[_ W] _]; rewrite Ep in W; destruct (well_nonempty _ W eq_refl)|].
  destruct (show_term t) as [|e tt'] eqn:Et; [destruct (well_nonempty _ T eq_refl)|].
  eexists. split; [reflexivity|]. cbn [reads r_pred r_target r_depth]. split; [now rewrite Ep|]. split; [now rewrite Et|].
  set (r := sp :: bar :: d ++ e :: tt'). unfold left_of. rewrite <- app_assoc. cbn [app].
  split.
  - pose proof (depth_bound _ (skips above) (item last) ((bar :: bar :: bar :: sp :: show_pred p) ++ r) (le_n _)) as X. cbn [app] in X.
    pose proof (skips_length above). specialize (X ltac:(destruct last; discriminate) ltac:(destruct last; discriminate)). lia.
  - intros H. rewrite depth_middle; [|exact H|].
    + rewrite depth_item. lia.
    + intros x l [= <- _]. destruct last; split; discriminate.
Qed.
Lemma same_text_eq a b : same_text a b = true <-> a = b.
Proof.
  revert b. induction a as [|x a IH]; intros [|y b]; cbn; try (split; [discriminate|congruence]); [tauto|].
  rewrite andb_true_iff, N.eqb_eq, IH. split; [intros [-> ->]; reflexivity|intros [= -> ->]; auto].
Qed.
Lemma same_letters_false a b c : In c a -> ~ In (lower c) (List.map lower b) -> same_letters a b = false.
Proof.
  intros H X. destruct (same_letters a b) eqn:E; [|reflexivity]. apply same_text_eq in E. destruct X. rewrite <- E. now apply in_map.
Qed.
Lemma same_text_false a b c : In c a -> ~ In c b -> same_text a b = false.
Proof. intros H X. destruct (same_text a b) eqn:E; [|reflexivity]. apply same_text_eq in E. subst. contradiction. Qed.
Definition add (w : way) (r : reading) (l : list arc_read) : reading :=
  match w with
  | Out => {| rd_section := rd_section r; rd_out := rd_out r ++ l; rd_in := rd_in r |}
  | In_ => {| rd_section := rd_section r; rd_out := rd_out r; rd_in := rd_in r ++ l |}
  end.
Lemma item_in w above last p t : In (item last) (line_of w above last p t).
Proof. unfold line_of, left_of. rewrite !in_app_iff. left. right. now left. Qed.
Ltac not_there := let X := fresh in intros X; vm_compute in X; repeat (destruct X as [X|X]; [discriminate X|]); destruct X.
Lemma read_arc w r above last p t : rd_section r = Some w -> plain p -> one_line (show_term t) ->
  exists a, read_line r (line_of w above last p t) = add w r [a] /\ reads (p, t, above) a.
Proof.
  intros S P T. destruct (parse_line_right w above last p t P T) as (a & E & A). exists a. split; [|exact A].
  assert (I : In (item last) (trim (line_of w above last p t))) by (apply trim_keeps; [destruct last; reflexivity|apply item_in]).
  unfold read_line.
  rewrite (same_letters_false _ (title Out) _ I) by (destruct last; not_there).
  rewrite (same_letters_false _ (title In_) _ I) by (destruct last; not_there).
  rewrite (same_text_false _ [] _ I) by (intros []). rewrite (same_text_false _ [up_head] _ I) by (destruct last; not_there).
  cbn [orb]. rewrite S. destruct w; rewrite E; unfold add; rewrite S; reflexivity.
Qed.
Lemma add_add w r l k : add w (add w r l) k = add w r (l ++ k).
Proof. destruct w; unfold add; cbn; now rewrite app_assoc. Qed.
Lemma add_section w r l : rd_section (add w r l) = rd_section r.
Proof. destruct w; reflexivity. Qed.
Lemma add_nil w r : add w r [] = r.
Proof. destruct w, r; unfold add; cbn; now rewrite app_nil_r. Qed.
Lemma read_tree w l : forall r above, rd_section r = Some w -> plain_tree l ->
  exists as_, fold_left read_line (all_lines w above l) r = add w r as_ /\ Forall2 reads (all_entries above l) as_.
Proof.
  induction l as [l IH] using list_info_ind. intros r above S P. inversion P as [l' Q]; subst l'. clear P. revert r S.
  induction l as [|[p t rest] l IHl]; intros r S.
  - exists []. cbn. rewrite add_nil. auto.
  - cbn [all_lines all_entries]. set (last := match l with [] => true | _ => false end).
    rewrite lines_of_is, entries_is. cbn [app fold_left].
    destruct (Q p t rest (or_introl eq_refl)) as (Pp & Pt & Pr).
    destruct (read_arc w r above last p t S Pp Pt) as (a & E & A). rewrite E, fold_left_app.
    destruct (IH p t rest (or_introl eq_refl) (add w r [a]) (above ++ [last])) as (as1 & E1 & F1); [now rewrite add_section|exact Pr|].
    rewrite E1, add_add.
    destruct IHl with (r := add w r ([a] ++ as1)) as (as2 & E2 & F2).
    + intros q u k I. apply (IH q u). now right.
    + intros q u k I. apply (Q q u k). now right.
    + now rewrite add_section.
    + rewrite E2, add_add. exists (([a] ++ as1) ++ as2). split; [reflexivity|]. cbn [app]. constructor; [exact A|].
      now apply Forall2_app.
Qed.
Lemma tree_lines w l : forall above, plain_tree l -> Forall line (all_lines w above l).
Proof.
  induction l as [l IH] using list_info_ind. intros above P. inversion P as [l' Q]; subst l'. clear P.
  induction l as [|[p t rest] l IHl]; [constructor|]. cbn [all_lines]. rewrite lines_of_is.
  destruct (Q p t rest (or_introl eq_refl)) as (Pp & Pt & Pr). cbn [app]. constructor.
  - unfold line, line_of. split.
    + unfold left_of. rewrite !in_app_iff. intros [[H|H]|[H|H]].
      * apply skips_chars in H. destruct H; discriminate.
      * destruct H as [H|H]; [destruct l; discriminate|]. do 4 (destruct H as [H|H]; [discriminate|]). exact (proj1 (proj1 Pp) H).
      * destruct w; cbn in H; intuition discriminate.
      * exact (proj1 Pt H).
    + rewrite app_assoc. apply no_cr_well. exact (proj2 Pt).
  - apply Forall_app. split; [exact (IH p t rest (or_introl eq_refl) _ Pr)|]. apply IHl.
    + intros q u k I. apply (IH q u). now right.
    + intros q u k I. apply (Q q u k). now right.
Qed.
Lemma plain_same l k : same_tree l k -> plain_tree l -> plain_tree k.
Proof.
  revert k. induction l as [l IH] using list_info_ind. intros k S P. inversion P as [l' Q]; subst l'. constructor.
  intros p t rest I. destruct (same_tree_in _ _ _ _ _ S I) as (r & J & Y). destruct (Q _ _ _ J) as (A & B & C).
  split; [exact A|]. split; [exact B|]. exact (IH _ _ _ J _ Y C).
Qed.

(* A section *)
Definition enter (w : way) (r : reading) : reading := {| rd_section := Some w; rd_out := rd_out r; rd_in := rd_in r |}.
Lemma read_title w r : read_line r (title w) = enter w r.
Proof. destruct w; reflexivity. Qed.
Lemma read_root r s : plain_root s -> read_line r (show_term (TSub s)) = r.
Proof.
  intros ([_ W] & N & D). unfold read_line. rewrite (proj2 (trim_well _ W)).
  assert (T : forall w, same_letters (show_term (TSub s)) (title w) = false).
  { intros w. destruct (same_letters _ _) eqn:E; [|reflexivity]. apply same_text_eq in E.
    assert (I : In 32%N (List.map lower (title w))) by (destruct w; vm_compute; tauto). rewrite <- E in I.
    apply in_map_iff in I. destruct I as (c & X & I). destruct N. replace 32%N with c; [exact I|]. revert X. unfold lower.
    destruct ((65 <=? c)%N && (c <=? 90)%N) eqn:F; [|auto]. apply andb_true_iff in F. rewrite !N.leb_le in F. lia. }
  rewrite !T. destruct (_ || _); [reflexivity|].
  assert (B : ~ In bar (show_term (TSub s))) by (intros X; apply (D _ X); left; reflexivity).
  assert (Z : forall w, parse_line w (show_term (TSub s)) = None).
  { intros w. unfold parse_line. destruct (delimiter_is w) as (d & ->). now rewrite split_absent. }
  rewrite !Z. destruct (rd_section r) as [[|]|]; reflexivity.
Qed.
Lemma read_up r : read_line r [up_head] = r.
Proof. reflexivity. Qed.
Lemma read_blank r : read_line r [] = r.
Proof. reflexivity. Qed.
Definition section_lines (w : way) (s : subject) (l : list info) : list text :=
  match l with
  | [] => []
  | _ => [title w] ++ match w with Out => [show_term (TSub s)] | In_ => [show_term (TSub s); [up_head]] end ++ all_lines w [] (arrange_all l) ++ [[]]
  end.
Lemma section_is w s l : section_of w s l = ended (section_lines w s l).
Proof. destruct l; reflexivity. Qed.
Lemma section_lines_right w s l : plain_root s -> plain_tree l -> Forall line (section_lines w s l).
Proof.
  intros R P. unfold section_lines. destruct l as [|i l]; [constructor|].
  assert (T : line (title w)) by (destruct w; split; [not_there|reflexivity|not_there|reflexivity]).
  assert (Rt : line (show_term (TSub s))). { destruct R as ([A B] & _). split; [exact A|]. exact (no_cr_well [] _ B). }
  assert (U : line [up_head]) by (split; [not_there|reflexivity]).
  assert (Bl : line []) by (split; [intros []|reflexivity]).
  pose proof (tree_lines w _ [] (plain_same _ _ (arrange_all_same (i :: l)) P)) as A.
  apply Forall_app. split; [auto|]. apply Forall_app. split; [destruct w; auto|]. apply Forall_app. auto.
Qed.
Lemma read_section w s l r : plain_root s -> plain_tree l ->
  exists r' as_, fold_left read_line (section_lines w s l) r = r' /\ Forall2 reads (all_entries [] (arrange_all l)) as_ /\
    rd_out r' = rd_out r ++ match w with Out => as_ | In_ => [] end /\ rd_in r' = rd_in r ++ match w with Out => [] | In_ => as_ end.
Proof.
  intros R P. unfold section_lines. destruct l as [|i l].
  - exists r, []. cbn. destruct w; rewrite !app_nil_r; auto.
  - destruct (read_tree w (arrange_all (i :: l)) (enter w r) [] eq_refl (plain_same _ _ (arrange_all_same (i :: l)) P)) as (as_ & E & F).
    exists (add w (enter w r) as_), as_. split; [|split; [exact F|]].
    + rewrite !fold_left_app. cbn [fold_left]. rewrite read_title.
      replace (fold_left read_line match w with Out => [show_term (TSub s)] | In_ => [show_term (TSub s); [up_head]] end (enter w r)) with (enter w r).
      * rewrite E. apply read_blank.
      * destruct w; cbn [fold_left]; rewrite read_root by exact R; reflexivity.
    + destruct w; cbn; rewrite app_nil_r; auto.
Qed.
End lines.
