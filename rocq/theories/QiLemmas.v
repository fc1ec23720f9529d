(* Facts about quoting, mounts and what is hashed. *)
From Coq Require Import List String Ascii Bool Arith NArith DecimalString DecimalNat Lia.
From Verif Require Import QiModel QiSpec.
Import ListNotations.
Open Scope list_scope.

(* quoting *)
Lemma safe_plain : forall c, safe_char c = true ->
  Ascii.eqb c " " = false /\ Ascii.eqb c (ascii_of_nat 39) = false /\ Ascii.eqb c (ascii_of_nat 92) = false /\
  existsb (Ascii.eqb c) meta = false.
Proof.
  intros [[] [] [] [] [] [] [] []]; vm_compute; intros H; try discriminate H; repeat split.
Qed.

Lemma safe_walk s : forall w rest, forallb safe_char s = true -> words (Inside w) (s ++ rest) = words (Inside (w ++ s)) rest.
Proof.
  induction s as [|c s IH]; intros w rest H; [now rewrite app_nil_r|]. cbn [forallb] in H. apply andb_true_iff in H as [A B].
  destruct (safe_plain c A) as (E1 & E2 & E3 & E4). cbn [app words]. rewrite E1, E2, E3, E4, IH by exact B. now rewrite <- app_assoc.
Qed.

Lemma quoted_walk s : forall w rest, words (Quoted w) (escape s ++ apostrophe :: rest) = words (Inside (w ++ s)) rest.
Proof.
  induction s as [|c s IH]; intros w rest.
  - rewrite app_nil_r. reflexivity.
  - unfold escape. cbn [flat_map]. fold (escape s). destruct (Ascii.eqb_spec c apostrophe) as [->|N].
    + change (words (Quoted w) (([apostrophe; backslash; apostrophe; apostrophe] ++ escape s) ++ apostrophe :: rest))
        with (words (Quoted (w ++ [apostrophe])) (escape s ++ apostrophe :: rest)).
      rewrite IH. now rewrite <- app_assoc.
    + cbn [app words]. apply Ascii.eqb_neq in N. fold apostrophe. rewrite N, IH. now rewrite <- app_assoc.
Qed.

Lemma quote_walk s rest : s <> [] -> words Outside (shell_quote s ++ rest) = words (Inside s) rest.
Proof.
  intros N. unfold shell_quote. destruct (forallb safe_char s) eqn:S.
  - destruct s as [|c s]; [congruence|]. cbn [forallb] in S. apply andb_true_iff in S as [A B].
    destruct (safe_plain c A) as (E1 & E2 & E3 & E4). cbn [app words]. rewrite E1, E2, E3, E4. now rewrite safe_walk.
  - change (words Outside ((apostrophe :: escape s ++ [apostrophe]) ++ rest)) with (words (Quoted []) ((escape s ++ [apostrophe]) ++ rest)).
    rewrite <- app_assoc. cbn [app]. now rewrite quoted_walk.
Qed.

Lemma join_words l : Forall (fun a => a <> []) l -> words Outside (shell_join l) = Some l.
Proof.
  induction 1 as [|a l N F IH]; [reflexivity|]. destruct l as [|b l].
  - cbn [shell_join]. rewrite <- (app_nil_r (shell_quote a)). now rewrite quote_walk.
  - change (shell_join (a :: b :: l)) with (shell_quote a ++ " "%char :: shell_join (b :: l)).
    rewrite quote_walk by exact N. cbn [words]. change (Ascii.eqb " " " ") with true. cbv iota. now rewrite IH.
Qed.

(* mounts *)
Lemma print_inj m n : print m = print n -> m = n.
Proof.
  unfold print, chars. intros H. apply (f_equal string_of_list_ascii) in H. rewrite !string_of_list_ascii_of_string in H.
  assert (Z : forall k, Nat.to_uint k <> Decimal.Nil).
  { intros k E. assert (K : Nat.to_uint (Nat.of_uint Decimal.Nil) = Decimal.unorm Decimal.Nil) by apply DecimalNat.Unsigned.to_of.
    pose proof (DecimalNat.Unsigned.of_to k) as O. rewrite E in O. cbn in O. subst k. discriminate E. }
  apply (f_equal NilZero.uint_of_string) in H. rewrite !NilZero.usu in H by apply Z. injection H as H.
  rewrite <- (DecimalNat.Unsigned.of_to m), H. apply DecimalNat.Unsigned.of_to.
Qed.

Lemma print_colonless n : colonless (print n).
Proof.
  assert (E : forall d, colonless (chars (NilEmpty.string_of_uint d))).
  { unfold colonless, chars. induction d; cbn; [tauto|..]; intros [H|H]; (discriminate H || exact (IHd H)). }
  unfold print, NilZero.string_of_uint. destruct (Nat.to_uint n) eqn:D; [cbn; intros [H|[]]; discriminate H|..]; rewrite <- D; apply E.
Qed.

Lemma cut_colonless a : colonless a -> cut a = (a, None).
Proof.
  induction a as [|c a IH]; intros H; [reflexivity|]. cbn [cut]. destruct (Ascii.eqb_spec c ":") as [->|N]; [elim H; now left|].
  rewrite IH; [reflexivity|]. intros K. apply H. now right.
Qed.
Lemma cut_colon a r : colonless a -> cut (a ++ ":"%char :: r) = (a, Some r).
Proof.
  induction a as [|c a IH]; intros H; [reflexivity|]. cbn [app cut]. destruct (Ascii.eqb_spec c ":") as [->|N]; [elim H; now left|].
  rewrite IH; [reflexivity|]. intros K. apply H. now right.
Qed.
Lemma read_bind_bind h c m : colonless h -> colonless c -> colonless m -> read_bind (bind h c m) = Some (h, c, m).
Proof. intros H C M. unfold read_bind, bind. now rewrite (cut_colon h), (cut_colon c), (cut_colonless m). Qed.

Lemma mount_of_in f ms c : mount_of f ms = Some c -> In (f, c) ms.
Proof. induction ms as [|[g d] ms IH]; cbn; [discriminate|]. destruct (text_dec f g) as [->|]; [intros [= <-]; now left|]. intros H. right. now apply IH. Qed.

Definition inputs_dir (n : nat) : text := chars "/inputs/" ++ print n.
Lemma inputs_dir_inj m n : inputs_dir m = inputs_dir n -> m = n.
Proof. unfold inputs_dir. intros H. apply app_inv_head in H. now apply print_inj. Qed.
Lemma inputs_dir_data n : inputs_dir n <> data_dir.
Proof. discriminate. Qed.
Lemma inputs_dir_colonless n : colonless (inputs_dir n).
Proof. intros H. apply in_app_or in H as [H|H]; [cbn in H; intuition discriminate|]. exact (print_colonless n H). Qed.

Record good (idx : text) (ms : list (text * text)) (binds : list text) : Prop := {
  g_dir : forall f c, In (f, c) ms ->
    (f = idx /\ c = data_dir) \/
    (f <> idx /\ In (bind f c (chars "ro")) binds /\ exists k, k < List.length ms /\ c = inputs_dir k);
  g_binds : forall b, In b binds ->
    b = bind idx data_dir (chars "rw") \/ exists f c, In (f, c) ms /\ f <> idx /\ b = bind f c (chars "ro");
  g_first : In (bind idx data_dir (chars "rw")) binds;
  g_once : forall f g c, In (f, c) ms -> In (g, c) ms -> f = g;
}.

Lemma good_start idx : good idx [] [bind idx data_dir (chars "rw")].
Proof.
  split.
  - intros f c [].
  - intros b [<-|[]]. now left.
  - now left.
  - intros f g c [].
Qed.

Lemma arguments_good idx l : forall ms binds a b, good idx ms binds -> arguments idx l ms binds = (a, b) ->
  exists ms' ps, good idx ms' b /\ (forall x, In x ms -> In x ms') /\
    (forall f c, In (f, c) ms' -> In (f, c) ms \/ exists i, In i l /\ folder i = f) /\
    a = List.concat (List.map (fun x => flags (snd x) (fst x)) (combine l ps)) /\
    Forall2 (fun i p => if is_packed i then p = chars "-" else exists c, In (folder i, c) ms' /\ p = c ++ slash :: name i) l ps.
Proof.
  induction l as [|i l IH]; intros ms binds a b G E; cbn [arguments] in E.
  - injection E as <- <-. exists ms, []. repeat split; try apply G; auto.
  - destruct (is_packed i) eqn:P.
    + destruct (arguments idx l ms binds) as [a' b'] eqn:R. injection E as <- <-.
      destruct (IH _ _ _ _ G R) as (ms' & ps & G' & S & O & -> & F). exists ms', (chars "-" :: ps).
      split; [exact G'|]. split; [exact S|]. split; [|split; [reflexivity|constructor; [now rewrite P|exact F]]].
      intros f c H. destruct (O f c H) as [K|(j & J & <-)]; [now left|right; exists j; split; [now right|reflexivity]].
    + assert (X : exists c ms1 binds1, good idx ms1 binds1 /\ (forall x, In x ms -> In x ms1) /\ In (folder i, c) ms1 /\
        (forall f d, In (f, d) ms1 -> In (f, d) ms \/ folder i = f) /\
        (let (a, b) := arguments idx l ms1 binds1 in (flags (c ++ slash :: name i) i ++ a, b)) = (a, b)).
      { destruct (mount_of (folder i) ms) as [c|] eqn:M.
        - exists c, ms, binds. apply mount_of_in in M. repeat split; try apply G; auto.
        - destruct (text_dec (folder i) idx) as [D|D].
          + exists data_dir, ((folder i, data_dir) :: ms), binds. split; [|split; [intros x H; now right|split; [now left|split; [|exact E]]]].
            * destruct G as [A B C U]. split; [| |exact C|].
              -- intros f c [[= <- <-]|H]; [now left|]. destruct (A f c H) as [K|(K1 & K2 & k & K3 & K4)]; [now left|].
                 right. split; [exact K1|]. split; [exact K2|]. exists k. cbn. split; [lia|exact K4].
              -- intros x H. destruct (B x H) as [K|(f & c & K1 & K2)]; [now left|]. right. exists f, c. split; [now right|exact K2].
              -- assert (Z : forall g, In (g, data_dir) ms -> g = idx).
                 { intros g H. destruct (A g _ H) as [[K _]|(_ & _ & k & _ & K)]; [exact K|]. now elim (inputs_dir_data k). }
                 intros f g c [[= <- <-]|H] [K|K].
                 ++ now injection K.
                 ++ rewrite D. symmetry. now apply Z.
                 ++ injection K as <- <-. rewrite D. now apply Z.
                 ++ exact (U f g c H K).
            * intros f d [[= <- _]|H]; auto.
          + fold (inputs_dir (List.length ms)) in E. set (c := inputs_dir (List.length ms)) in *.
            exists c, ((folder i, c) :: ms), (binds ++ [bind (folder i) c (chars "ro")]).
            split; [|split; [intros x H; now right|split; [now left|split; [|exact E]]]].
            * destruct G as [A B C U]. split.
              -- intros f d [[= <- <-]|H].
                 ++ right. split; [exact D|]. split; [apply in_or_app; right; now left|]. exists (List.length ms). cbn. split; [lia|reflexivity].
                 ++ destruct (A f d H) as [K|(K1 & K2 & k & K3 & K4)]; [now left|]. right. split; [exact K1|].
                    split; [apply in_or_app; now left|]. exists k. cbn. split; [lia|exact K4].
              -- intros x H. apply in_app_or in H as [H|[<-|[]]].
                 ++ destruct (B x H) as [K|(f & d & K1 & K2)]; [now left|]. right. exists f, d. split; [now right|exact K2].
                 ++ right. exists (folder i), c. split; [now left|]. now split.
              -- apply in_or_app. now left.
              -- assert (Z : forall g, ~ In (g, c) ms).
                 { intros g H. destruct (A g c H) as [[_ K]|(_ & _ & k & K1 & K2)]; [now apply inputs_dir_data in K|].
                   apply inputs_dir_inj in K2. lia. }
                 intros f g d [[= <- <-]|H] [K|K].
                 ++ now injection K.
                 ++ now elim (Z g).
                 ++ injection K as <- <-. now elim (Z f).
                 ++ exact (U f g d H K).
            * intros f d [[= <- _]|H]; auto. }
      clear E. destruct X as (c & ms1 & binds1 & G1 & S1 & I1 & O1 & E). destruct (arguments idx l ms1 binds1) as [a' b'] eqn:R. injection E as <- <-.
      destruct (IH _ _ _ _ G1 R) as (ms' & ps & G' & S & O & -> & F). exists ms', ((c ++ slash :: name i) :: ps).
      split; [exact G'|]. split; [auto|]. split; [|split; [reflexivity|constructor; [rewrite P; exists c; auto|exact F]]].
      intros f d H. destruct (O f d H) as [K|(j & J & <-)].
      * destruct (O1 f d K) as [Q|Q]; [now left|right; exists i; split; [now left|exact Q]].
      * right. exists j. split; [now right|reflexivity].
Qed.

(* what is hashed *)
Lemma first_split (k : ascii) a : forall b r s, ~ In k a -> ~ In k b -> a ++ k :: r = b ++ k :: s -> a = b /\ r = s.
Proof.
  induction a as [|x a IH]; intros [|y b] r s A B E; cbn [app] in E.
  - injection E as ->. now split.
  - injection E as -> _. elim B. now left.
  - injection E as -> _. elim A. now left.
  - injection E as -> E. apply IH in E as [-> ->]; [now split| |]; intros X; [apply A|apply B]; now right.
Qed.
Lemma last_split (k : ascii) a b r s : ~ In k r -> ~ In k s -> a ++ k :: r = b ++ k :: s -> a = b /\ r = s.
Proof.
  intros R S E. assert (X : rev r ++ k :: rev a = rev s ++ k :: rev b).
  { apply (f_equal (@rev ascii)) in E. rewrite !rev_app_distr in E. cbn [rev] in E. now rewrite <- !app_assoc in E. }
  apply first_split in X as [X Y]; [|now rewrite <- in_rev|now rewrite <- in_rev].
  split; [rewrite <- (rev_involutive a), Y; apply rev_involutive|rewrite <- (rev_involutive r), X; apply rev_involutive].
Qed.

Definition begins (r : text) : Prop := r = [] \/ exists t, r = slash :: t.
Lemma stream_begins l : Forall ordinary l -> begins (stream l).
Proof.
  intros [|i l' (_ & H & _) _]; [now left|]. right. unfold stream. cbn [flat_map]. unfold path. destruct (folder i) as [|c f]; [discriminate H|].
  cbn in H. subst c. cbn [app]. eexists. reflexivity.
Qed.
Lemma tail_inj f p r g q s : begins r -> begins s ->
  cli_arg f ++ match p with Some p => family p | None => [] end ++ r =
  cli_arg g ++ match q with Some p => family p | None => [] end ++ s -> f = g /\ p = q /\ r = s.
Proof.
  intros [->|(t & ->)] [->|(u & ->)]; destruct f, g, p as [[]|], q as [[]|]; cbn; intros E; try discriminate E; repeat split; congruence.
Qed.
Lemma stream_inj l : forall m, Forall ordinary l -> Forall ordinary m -> stream l = stream m -> l = m.
Proof.
  induction l as [|i l IH]; intros [|j m] Hl Hm E; [reflexivity| | |].
  - unfold stream in E. cbn [flat_map] in E. destruct (path j); discriminate E.
  - unfold stream in E. cbn [flat_map] in E. destruct (path i); discriminate E.
  - inversion Hl as [|? ? (G1 & F1 & N1 & S1) Hl']; subst. inversion Hm as [|? ? (G2 & F2 & N2 & S2) Hm']; subst.
    unfold stream in E. cbn [flat_map] in E. fold (stream l) in E. fold (stream m) in E. rewrite G1, G2 in E. cbn [app] in E.
    rewrite <- !app_assoc in E. cbn [app] in E. rewrite <- !app_assoc in E. apply first_split in E as [P E]; [|exact N1|exact N2].
    apply tail_inj in E as (Ef & Ep & Er); [|now apply stream_begins|now apply stream_begins].
    unfold path in P. apply last_split in P as [Pf Pn]; [|exact S1|exact S2].
    rewrite (IH m Hl' Hm' Er). f_equal. destruct i, j. cbn in *. congruence.
Qed.
