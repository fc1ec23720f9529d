(* C111: sizes of memory are read as they are written. *)
From Coq Require Import List String Ascii Bool Arith NArith Lia.
From Verif Require Import SzModel SzSpec.
Import ListNotations.
Open Scope list_scope.

Lemma white_in c : white c = true <-> In (nat_of_ascii c) [9; 10; 11; 12; 13; 32].
Proof.
  unfold white. generalize (nat_of_ascii c). intros n.
  do 33 (destruct n as [|n]; [cbn; split; [intros; try discriminate; tauto|intros; try reflexivity; exfalso; lia]|]).
  cbn. split; [discriminate|]. intros. exfalso. lia.
Qed.
Lemma start_spec s : exists p, blank p /\ s = p ++ trim_start s.
Proof.
  induction s as [|c s (p & B & E)]; cbn; [exists []; split; [constructor|reflexivity]|].
  destruct (white c) eqn:W; [|exists []; split; [constructor|reflexivity]].
  exists (c :: p). split; [constructor; [now apply white_in|exact B]|]. cbn. congruence.
Qed.
Lemma start_blank p s : blank p -> trim_start (p ++ s) = trim_start s.
Proof. induction 1 as [|c p H B IH]; [reflexivity|]. cbn. apply white_in in H. now rewrite H. Qed.
Lemma blank_app p q : blank p -> blank q -> blank (p ++ q).
Proof. intros. apply Forall_app. auto. Qed.
Lemma blank_rev p : blank p -> blank (rev p).
Proof. intros B. apply Forall_rev. exact B. Qed.
Lemma trim_spec s : exists p q, blank p /\ blank q /\ s = p ++ trim s ++ q.
Proof.
  destruct (start_spec s) as (p & P & E). destruct (start_spec (rev (trim_start s))) as (q & Q & F).
  exists p, (rev q). split; [exact P|]. split; [now apply blank_rev|]. unfold trim. rewrite <- rev_app_distr, <- F, rev_involutive. exact E.
Qed.
Lemma trim_mid p x q c t t' d : blank p -> blank q -> x = c :: t -> x = t' ++ [d] -> white c = false -> white d = false ->
  trim (p ++ x ++ q) = x.
Proof.
  intros P Q C D Wc Wd. unfold trim. rewrite (start_blank _ _ P). rewrite C at 1. cbn [app trim_start]. rewrite Wc.
  change (c :: t ++ q) with ((c :: t) ++ q). rewrite <- C, rev_app_distr, (start_blank _ _ (blank_rev _ Q)).
  rewrite D, rev_app_distr. cbn [rev app trim_start]. rewrite Wd. cbn [rev]. now rewrite rev_involutive.
Qed.

(* the characters of numerals *)
Definition mark (c : ascii) : Prop := 48 <= nat_of_ascii c <= 57 \/ c = "."%char \/ c = "+"%char.
Lemma mark_white c : mark c -> white c = false.
Proof.
  intros M. destruct (white c) eqn:W; [|reflexivity]. apply white_in in W. cbn in W. destruct M as [M|[->| ->]]; [lia|discriminate W || (cbn in W; lia)..].
Qed.
Lemma mark_letter c d : mark d -> In c (chars "BiGgMmKkTt") -> Ascii.eqb c d = false.
Proof.
  intros M I. destruct (Ascii.eqb_spec c d) as [->|]; [exfalso|reflexivity]. cbn in I.
  repeat (destruct I as [<-|I]; [destruct M as [M|[M|M]]; [cbn in M; lia|discriminate M..]|]). destruct I.
Qed.
Lemma decimal_mark a c : decimal a -> In c a -> mark c.
Proof. intros D I. left. unfold decimal in D. rewrite Forall_forall in D. now apply D. Qed.
Lemma numeral_marks x n k : numeral x n k -> x <> [] /\ forall c, In c x -> mark c.
Proof.
  induction 1 as [a D N|a b Da Db N|s n k _ H (_ & IH)].
  - split; [exact N|]. intros c. now apply decimal_mark.
  - split; [now destruct a|]. intros c I. apply in_app_or in I as [I|[<-|I]]; [now apply (decimal_mark a)|right; now left|now apply (decimal_mark b)].
  - split; [discriminate|]. intros c [<-|I]; [right; now right|now apply IH].
Qed.
Lemma numeral_ends x n k : numeral x n k -> exists c t t' d, x = c :: t /\ x = t' ++ [d] /\ mark c /\ mark d.
Proof.
  intros H. destruct (numeral_marks _ _ _ H) as (N & M). destruct x as [|c t]; [congruence|].
  destruct (exists_last N) as (t' & d & E). exists c, t, t', d. repeat split; [exact E|apply M; now left|].
  apply M. rewrite E. apply in_or_app. right. now left.
Qed.

(* units *)
Lemma unit_split x u m : unit_of u m -> u <> [] -> split_unit units (x ++ u) = (x, m).
Proof.
  intros U N. destruct U as [|l e t I J|l e I|l e I]; [congruence|..]; cbn in I;
    repeat (destruct I as [I|I]; [injection I as <- <-|]); try contradiction I;
    try (cbn in J; destruct J as [<-|[<-|[<-|[]]]]);
    unfold split_unit, units, strip_suffix; rewrite rev_app_distr; cbn [rev app chars list_ascii_of_string strip_prefix option_map];
    cbn -[N.pow]; now rewrite rev_involutive.
Qed.
Lemma no_unit t d : mark d -> split_unit units (t ++ [d]) = (t ++ [d], 1%N).
Proof.
  intros M. unfold split_unit, units, strip_suffix. rewrite rev_app_distr. cbn [rev app chars list_ascii_of_string strip_prefix option_map].
  rewrite !(mark_letter _ _ M) by (cbn; tauto). reflexivity.
Qed.
Lemma strip_spec p : forall s r, strip_prefix p s = Some r -> s = p ++ r.
Proof.
  induction p as [|a p IH]; intros [|b s] r E; cbn in E |- *; try discriminate; try congruence.
  destruct (Ascii.eqb_spec a b) as [->|]; [|discriminate]. f_equal. now apply IH.
Qed.
Lemma suffix_spec p s r : strip_suffix p s = Some r -> s = r ++ p.
Proof.
  unfold strip_suffix. destruct (strip_prefix (rev p) (rev s)) as [q|] eqn:E; [|discriminate]. intros [= <-].
  apply strip_spec in E. rewrite <- (rev_involutive s), E, rev_app_distr, rev_involutive. reflexivity.
Qed.
Lemma split_spec us s r m : split_unit us s = (r, m) -> (r = s /\ m = 1%N) \/ exists u, In (u, m) us /\ s = r ++ u.
Proof.
  induction us as [|[u m'] us IH]; cbn; [intros [= <- <-]; now left|]. destruct (strip_suffix u s) as [q|] eqn:E.
  - intros [= <- <-]. right. exists u. split; [now left|]. now apply suffix_spec.
  - intros H. destruct (IH H) as [H'|(v & I & ->)]; [now left|]. right. exists v. auto.
Qed.
Lemma units_right u m : In (u, m) units -> unit_of u m.
Proof.
  assert (K : In ("K"%char, 1%N) [("K", 1); ("M", 2); ("G", 3); ("T", 4)]%char%N) by (cbn; tauto).
  assert (M : In ("M"%char, 2%N) [("K", 1); ("M", 2); ("G", 3); ("T", 4)]%char%N) by (cbn; tauto).
  assert (G : In ("G"%char, 3%N) [("K", 1); ("M", 2); ("G", 3); ("T", 4)]%char%N) by (cbn; tauto).
  assert (T : In ("T"%char, 4%N) [("K", 1); ("M", 2); ("G", 3); ("T", 4)]%char%N) by (cbn; tauto).
  assert (X : In (chars "iB") [[]; chars "i"; chars "iB"]) by (cbn; tauto).
  assert (Y : In (chars "i") [[]; chars "i"; chars "iB"]) by (cbn; tauto).
  assert (Z : In [] [[]; chars "i"; chars "iB"]) by (cbn; tauto).
  intros I. unfold units in I.
  repeat (destruct I as [I|I]; [injection I as <- <-;
    first [exact (Binary _ _ _ K X)|exact (Binary _ _ _ K Y)|exact (Binary _ _ _ K Z)|exact (Thousands _ _ K)
          |exact (Binary _ _ _ M X)|exact (Binary _ _ _ M Y)|exact (Binary _ _ _ M Z)|exact (Thousands _ _ M)
          |exact (Binary _ _ _ G X)|exact (Binary _ _ _ G Y)|exact (Binary _ _ _ G Z)|exact (Thousands _ _ G)
          |exact (Binary _ _ _ T X)|exact (Binary _ _ _ T Y)|exact (Binary _ _ _ T Z)|exact (Thousands _ _ T)
          |exact (Small "k" 1 ltac:(cbn; tauto))|exact (Small "m" 2 ltac:(cbn; tauto))
          |exact (Small "g" 3 ltac:(cbn; tauto))|exact (Small "t" 4 ltac:(cbn; tauto))]|]). destruct I.
Qed.

(* numbers *)
Definition more (n : N) (s : text) : N := fold_left (fun n c => (n * 10 + N.of_nat (nat_of_ascii c - 48))%N) s n.
Lemma digit_spec c d : digit c = Some d <-> 48 <= nat_of_ascii c <= 57 /\ d = N.of_nat (nat_of_ascii c - 48).
Proof.
  unfold digit. destruct ((48 <=? nat_of_ascii c) && (nat_of_ascii c <=? 57)) eqn:E.
  - apply andb_true_iff in E as [A B]. apply Nat.leb_le in A, B. split; [intros [= <-]; auto|intros [_ ->]; reflexivity].
  - split; [discriminate|]. intros [[A B] _]. apply Nat.leb_le in A, B. now rewrite A, B in E.
Qed.
Lemma digit_point c : 48 <= nat_of_ascii c <= 57 -> Ascii.eqb c "." = false.
Proof. intros H. destruct (Ascii.eqb_spec c "."); [subst; cbn in H; lia|reflexivity]. Qed.
Lemma read_digits a : decimal a -> forall s n k b,
  read (a ++ s) n k b = read s (more n a) (option_map (fun k => k + List.length a) k) (b || negb (match a with [] => true | _ => false end)).
Proof.
  induction 1 as [|c a H D IH]; intros s n k b; cbn [app more fold_left List.length].
  - rewrite orb_false_r. destruct k; cbn; [now rewrite Nat.add_0_r|reflexivity].
  - cbn [read]. rewrite (digit_point c H). rewrite (proj2 (digit_spec c _) (conj H eq_refl)). rewrite IH. unfold more. cbn [negb orb].
    rewrite orb_true_r. destruct k; cbn [option_map]; [|reflexivity]. now replace (S n0 + List.length a) with (n0 + S (List.length a)) by lia.
Qed.
Lemma number_numeral x n k : numeral x n k -> number x = Some (n, k).
Proof.
  assert (W : forall x n k, numeral x n k -> (forall t, x <> "+"%char :: t) -> read x 0 None false = Some (n, k)).
  { intros y m j H P. destruct H as [a D N|a b Da Db N|s n' k' _ _].
    - rewrite <- (app_nil_r a) at 1. rewrite (read_digits a D). destruct a; [congruence|]. reflexivity.
    - rewrite (read_digits a Da). cbn [read]. rewrite Ascii.eqb_refl. cbn [option_map]. rewrite <- (app_nil_r b) at 1. rewrite (read_digits b Db). cbn [read option_map].
      unfold value, more. rewrite fold_left_app. destruct a; [destruct b; [now elim N|]|]; reflexivity.
    - now elim (P s). }
  intros H. destruct H as [a D N|a b Da Db N|s n k P H].
  - pose proof (W _ _ _ (Whole a D N)) as R. destruct a as [|c a]; [congruence|]. cbn [number].
    assert (E : c <> "+"%char) by (intros ->; inversion D; subst; cbn in *; lia).
    destruct (Ascii.eqb_spec c "+"); [congruence|]. apply R. congruence.
  - pose proof (W _ _ _ (Point a b Da Db N)) as R. destruct a as [|c a]; cbn [app number] in *.
    + apply R. discriminate.
    + assert (E : c <> "+"%char) by (intros ->; inversion Da; subst; cbn in *; lia).
      destruct (Ascii.eqb_spec c "+"); [congruence|]. apply R. congruence.
  - cbn [number]. rewrite Ascii.eqb_refl. now apply W.
Qed.
Lemma read_point s : forall n k b v j, read s n (Some k) b = Some (v, j) ->
  decimal s /\ v = more n s /\ j = k + List.length s /\ (b = true \/ s <> []).
Proof.
  induction s as [|c s IH]; intros n k b v j E; cbn [read] in E.
  - destruct b; [|discriminate]. injection E as <- <-. repeat split; [constructor|cbn; lia|now left].
  - destruct (Ascii.eqb c "."); [discriminate|]. destruct (digit c) as [d|] eqn:D; [|discriminate]. apply digit_spec in D as [R ->].
    destruct (IH _ _ _ _ _ E) as (Ds & -> & -> & _). repeat split; [constructor; assumption|cbn; lia|right; discriminate].
Qed.
Lemma read_whole s : forall n b v j, read s n None b = Some (v, j) ->
  (decimal s /\ v = more n s /\ j = 0 /\ (b = true \/ s <> [])) \/
  exists x y, s = x ++ "."%char :: y /\ decimal x /\ decimal y /\ v = more n (x ++ y) /\ j = List.length y /\ (b = true \/ x ++ y <> []).
Proof.
  induction s as [|c s IH]; intros n b v j E; cbn [read] in E.
  - destruct b; [|discriminate]. injection E as <- <-. left. repeat split; [constructor|now left].
  - destruct (Ascii.eqb_spec c ".") as [->|P].
    + apply read_point in E as (D & -> & -> & B). right. exists [], s. repeat split; [constructor|exact D|exact B].
    + destruct (digit c) as [d|] eqn:D; [|discriminate]. apply digit_spec in D as [R ->].
      destruct (IH _ _ _ _ E) as [(Ds & -> & -> & _)|(x & y & -> & Dx & Dy & -> & -> & _)].
      * left. repeat split; [constructor; assumption|right; discriminate].
      * right. exists (c :: x), y. repeat split; [constructor; assumption|exact Dy|right; discriminate].
Qed.
Lemma numeral_number s n k : number s = Some (n, k) -> numeral s n k.
Proof.
  assert (W : forall s n k, read s 0 None false = Some (n, k) -> numeral s n k /\ forall t, s <> "+"%char :: t).
  { intros t m j E. split.
    - apply read_whole in E as [(D & -> & -> & [B|N])|(x & y & -> & Dx & Dy & -> & -> & [B|N])]; try discriminate B; [now apply Whole|now apply Point].
    - intros u ->. cbn in E. discriminate. }
  destruct s as [|c s]; [discriminate|]. cbn [number]. destruct (Ascii.eqb_spec c "+") as [->|P]; intros E.
  - destruct (W _ _ _ E). now apply Plus.
  - now apply W.
Qed.

(* A text is taken just when it is a size that fits, and read as what it says.  The full statement: this
   also holds for numbers with exponents, and numbers that are not exact in 64 bits are rounded. *)
Theorem C111_size_partial : forall s v, parse_size s = Some v <-> size s v /\ (v < 2 ^ 63)%N.
Proof.
  intros s v. split.
  - unfold parse_size. destruct (trim_spec s) as (p & q & P & Q & E). destruct (trim s) as [|c t] eqn:T; [discriminate|]. rewrite <- T in *. clear c t T.
    destruct (split_unit units (trim s)) as [r m] eqn:U. destruct (trim_spec r) as (p' & q' & P' & Q' & E').
    destruct (number (trim r)) as [[n k]|] eqn:N; [|discriminate]. apply numeral_number in N.
    destruct (N.ltb_spec (n * m / 10 ^ N.of_nat k) (2 ^ 63)) as [Lt|]; [|discriminate]. intros [= <-]. split; [|exact Lt].
    assert (X : exists u, unit_of u m /\ trim s = r ++ u).
    { apply split_spec in U as [[-> ->]|(u & I & ->)]; [exists []; split; [constructor|now rewrite app_nil_r]|exists u; split; [now apply units_right|reflexivity]]. }
    destruct X as (u & Uu & Er). rewrite E, Er. rewrite E' at 1.
    replace (p ++ ((p' ++ trim r ++ q') ++ u) ++ q) with ((p ++ p') ++ trim r ++ q' ++ u ++ q) by (rewrite !app_assoc; reflexivity).
    apply Size; auto using blank_app.
  - intros [H Lt]. destruct H as [p x q u r n k m P Q R X U]. destruct (numeral_ends _ _ _ X) as (c & t & t' & d & C & D & Mc & Md).
    assert (Tx : forall a b, blank a -> blank b -> trim (a ++ x ++ b) = x).
    { intros a b A B. eapply trim_mid; eauto using mark_white. }
    assert (T : trim (p ++ x ++ q ++ u ++ r) = x ++ (match u with [] => [] | _ => q end) ++ u /\
      split_unit units (x ++ (match u with [] => [] | _ => q end) ++ u) = (x ++ match u with [] => [] | _ => q end, m)).
    { destruct u as [|a u'].
      - inversion U; subst m. cbn [app]. rewrite !app_nil_r. split; [now apply Tx, blank_app|]. rewrite D. now apply no_unit.
      - assert (Nu : a :: u' <> []) by discriminate. remember (a :: u') as w eqn:Ew. split.
        + destruct (exists_last Nu) as (w' & e & F).
          replace (p ++ x ++ q ++ w ++ r) with (p ++ (x ++ q ++ w) ++ r) by (rewrite !app_assoc; reflexivity).
          apply (trim_mid p _ r c (t ++ q ++ w) (x ++ q ++ w') e); auto using mark_white.
          * now rewrite C.
          * now rewrite F, !app_assoc.
          * clear -U F Nu. destruct U as [|l g s I J|l g I|l g I]; [congruence|..]; cbn in I;
              repeat (destruct I as [I|I]; [injection I as <- _|]); try contradiction I; try (cbn in J; destruct J as [<-|[<-|[<-|[]]]]);
              cbn in F; repeat (destruct w' as [|? w']; cbn in F; try discriminate F); injection F; intros; subst; reflexivity.
        + rewrite app_assoc. now apply unit_split. }
    destruct T as [T1 T2]. unfold parse_size. rewrite T1. rewrite T2.
    replace (trim (x ++ match u with [] => [] | _ => q end)) with x
      by (symmetry; apply (Tx [] (match u with [] => [] | _ => q end)); [constructor|destruct u; [constructor|exact Q]]).
    rewrite (number_numeral _ _ _ X). rewrite (proj2 (N.ltb_lt _ _) Lt). rewrite C. reflexivity.
Qed.
Print Assumptions C111_size_partial.

(* Limits that are not given are not set; those that are given are set or refused. *)
Theorem C111_limits_partial : forall m s a b, limits m s = Some (a, b) <->
  match m, a with Some t, Some v => size t v /\ (v < 2 ^ 63)%N | None, None => True | _, _ => False end /\
  match s, b with Some t, Some v => size t v /\ (v < 2 ^ 63)%N | None, None => True | _, _ => False end.
Proof.
  assert (X : forall o a, limit o = Some a <-> match o, a with Some t, Some v => size t v /\ (v < 2 ^ 63)%N | None, None => True | _, _ => False end).
  { intros [t|] a; cbn [limit]; [|destruct a; split; intros; try easy; congruence].
    destruct a as [v|]; [rewrite <- C111_size_partial|]; destruct (parse_size t); cbn; split; intros; try easy; congruence. }
  intros m s a b. rewrite <- !X. unfold limits. destruct (limit m), (limit s); split; intros H; try easy; try (now destruct H).
  - now injection H as <- <-.
  - destruct H as [[= <-] [= <-]]. reflexivity.
Qed.
Print Assumptions C111_limits_partial.

(* What Docker takes is not always taken, or taken for another size: no limit on swap is written -1 there,
   and units may be in small letters or end with b; GB and G are the same there. *)
Theorem C111_docker_refuted : parse_size (chars "-1") = None /\ parse_size (chars "512mb") = None /\ parse_size (chars "512b") = None /\
  parse_size (chars "512m") = Some (512 * 1024 ^ 2)%N /\ parse_size (chars "1GB") <> parse_size (chars "1G").
Proof. repeat split; try (vm_compute; reflexivity). vm_compute. discriminate. Qed.
Print Assumptions C111_docker_refuted.

Example C111_met : size (chars " 1.5 GiB ") 1610612736 /\ parse_size (chars " 1.5 GiB ") = Some 1610612736%N /\
  limits (Some (chars "2G")) None = Some (Some 2147483648%N, None) /\ parse_size (chars "9000000TB") = Some 9000000000000000000%N /\
  parse_size (chars "9000000TiB") = None.
Proof.
  split; [|repeat split; vm_compute; reflexivity].
  apply (Size [" "%char] (chars "1.5") [" "%char] (chars "GiB") [" "%char] 15 1 (1024 ^ 3)).
  - repeat constructor; cbn; tauto.
  - repeat constructor; cbn; tauto.
  - repeat constructor; cbn; tauto.
  - apply (Point (chars "1") (chars "5")); [repeat constructor; cbn; lia|repeat constructor; cbn; lia|discriminate].
  - apply (Binary "G" 3 (chars "iB")); cbn; tauto.
Qed.
