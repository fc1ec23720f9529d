(** Lemmas about building schemas from syntax trees. *)
From Coq Require Import List Bool Arith ZArith NArith Lia.
Import ListNotations.
From Verif Require Import PgsModel PgsSpec PgsLemmas PgModel PgSpec PgbModel PgbSpec.

Lemma bbind_some {A B} (x : built A) (f : A -> built B) b :
  bbind x f = Some b <-> exists a, x = Some a /\ f a = Some b.
Proof.
  destruct x as [a|]; cbn [bbind].
  - split; [eauto|]. intros [a' [E H]]. now injection E as <-.
  - split; [discriminate|]. intros [a [E _]]. discriminate.
Qed.

(** ** Literals *)

Lemma remove_quotes_ok e : remove_quotes (34 :: e ++ [34])%N = e.
Proof. unfold remove_quotes. cbn [tl]. apply removelast_last. Qed.

Lemma unescaped_same e b : ~ In 34%N e -> unescaped e b -> e = b.
Proof.
  intros N U; induction U as [|e b U IH|c e b H U IH]; [reflexivity| |].
  - destruct N. right. now left.
  - f_equal. apply IH. intro I. apply N. now right.
Qed.

Lemma unescaped_refl b : ~ In 34%N b -> unescaped b b.
Proof.
  induction b as [|c b IH]; intro N; constructor.
  - intros ->. apply N. now left.
  - apply IH. intro I. apply N. now right.
Qed.

Lemma spelled_plain s b : unquoted s -> (spelled s b <-> b = remove_quotes s).
Proof.
  intros [e [-> N]]. rewrite remove_quotes_ok. split.
  - intros [e' [E U]]. injection E as E. apply app_inj_tail in E as [<- _]. symmetry. now apply unescaped_same.
  - intros ->. exists e. split; [reflexivity|]. now apply unescaped_refl.
Qed.

Definition digit (c : N) : Prop := (48 <= c <= 57)%N.
Definition val (acc : N) (s : text) : N := fold_left (fun a c => a * 10 + (c - 48))%N s acc.

Lemma val_ge s acc : (acc <= val acc s)%N.
Proof.
  revert acc; induction s as [|c s IH]; intro acc; cbn [val fold_left]; [lia|].
  fold (val (acc * 10 + (c - 48))%N s). specialize (IH (acc * 10 + (c - 48))%N). lia.
Qed.

Lemma parse_from_ok limit s acc n :
  parse_from limit acc s = Some n <-> Forall digit s /\ n = val acc s /\ (s = [] \/ (val acc s <= limit)%N).
Proof.
  revert acc; induction s as [|c s IH]; intro acc; cbn [parse_from val fold_left].
  - split; [intros [= <-]; auto|]. intros (_ & -> & _). reflexivity.
  - fold (val (acc * 10 + (c - 48))%N s).
    destruct (N.leb 48 c && N.leb c 57)%bool eqn:D.
    + apply andb_true_iff in D as [D1 D2]. apply N.leb_le in D1, D2.
      pose proof (val_ge s (acc * 10 + (c - 48))%N) as G.
      destruct (N.leb (acc * 10 + (c - 48)) limit) eqn:L.
      * apply N.leb_le in L. rewrite IH. split.
        -- intros (F & E & [->|H]); (split; [constructor; [split; lia|exact F]|]); (split; [exact E|]); right; [cbn; lia|lia].
        -- intros (F & E & [H|H]); [discriminate|]. inversion F; subst. auto.
      * apply N.leb_gt in L. split; [discriminate|]. intros (F & E & [H|H]); [discriminate|lia].
    + split; [discriminate|]. intros (F & _). inversion F as [|? ? [F1 F2]]; subst.
      apply N.leb_le in F1, F2. rewrite F1, F2 in D. discriminate.
Qed.

Lemma numeral_val s n : numeral s n <-> s <> [] /\ Forall digit s /\ n = val 0 s.
Proof.
  split.
  - induction 1 as [d D|s n d N [IH1 [IH2 IH3]] D].
    + split; [discriminate|]. split; [constructor; [split; lia|constructor]|]. cbn [val fold_left].
      replace (0 * 10 + (48 + d - 48))%N with d by lia. reflexivity.
    + split; [destruct s; discriminate|]. split; [apply Forall_app; split; [exact IH2|constructor; [split; lia|constructor]]|].
      unfold val in *. rewrite fold_left_app, <- IH3. cbn [fold_left]. lia.
  - intros (H & F & ->). revert H F; induction s as [|c s IH] using rev_ind; intros H F; [now destruct H|].
    apply Forall_app in F as [F1 F2]. inversion F2 as [|? ? [D1 D2]]; subst. unfold val. rewrite fold_left_app. cbn [fold_left].
    fold (val 0 s). replace c with (48 + (c - 48))%N at 1 by lia.
    destruct s as [|d s].
    + cbn [app val fold_left]. replace (0 * 10 + (c - 48))%N with (c - 48)%N by lia. constructor. lia.
    + rewrite (N.mul_comm (val 0 (d :: s)) 10). constructor; [|lia]. apply IH; [discriminate|exact F1].
Qed.

Lemma numeral_fun s n m : numeral s n -> numeral s m -> n = m.
Proof. rewrite !numeral_val. intros (_ & _ & ->) (_ & _ & ->). reflexivity. Qed.

Lemma parse_number_ok limit s n : parse_number limit s = Some n <-> numeral s n /\ (n <= limit)%N.
Proof.
  unfold parse_number. rewrite numeral_val. destruct s as [|c s].
  - split; [discriminate|]. intros [[H _] _]. now destruct H.
  - rewrite parse_from_ok. split.
    + intros (F & E & [H|H]); [discriminate|]. split; [split; [discriminate|auto]|]. now rewrite E.
    + intros [(H & F & E) L]. split; [exact F|]. split; [exact E|]. right. now rewrite <- E.
Qed.

Section Readings.
  Variables (dates : text -> option Z) (rx : regexes).

  Lemma get_value_ok v w : plain_value v -> (get_value dates v = Some w <-> means dates v w).
  Proof.
    destruct v as [s|s|s|b]; cbn [plain_value get_value]; intro P.
    - split.
      + intros [= <-]. constructor. now apply spelled_plain.
      + inversion 1 as [? b H0| | |]; subst. apply (spelled_plain s b P) in H0. now subst.
    - destruct (parse_number max_i32 s) as [n|] eqn:E.
      + apply parse_number_ok in E as [E L]. split.
        * intros [= <-]. now constructor.
        * inversion 1 as [|? m H0| |]; subst. now rewrite (numeral_fun _ _ _ E H0).
      + split; [discriminate|]. inversion 1 as [|? m H0 H1| |]; subst.
        assert (X : parse_number max_i32 s = Some m) by (apply parse_number_ok; auto). congruence.
    - destruct (dates (remove_quotes s)) as [d|] eqn:E.
      + split.
        * intros [= <-]. econstructor; [apply (spelled_plain s _ P); reflexivity|exact E].
        * inversion 1 as [| |? b d' H0 H1|]; subst. apply (spelled_plain s b P) in H0. congruence.
      + split; [discriminate|]. inversion 1 as [| |? b d' H0 H1|]; subst. apply (spelled_plain s b P) in H0. congruence.
    - split; [intros [= <-]; constructor|]. now inversion 1.
  Qed.

  Lemma read_value_ok v : plain_value v -> (get_value dates v <> None <-> read_value dates v).
  Proof.
    intro P. unfold read_value. split.
    - destruct (get_value dates v) as [w|] eqn:E; [|congruence]. intros _. exists w. now apply get_value_ok.
    - intros [w H]. apply get_value_ok in H; [|exact P]. congruence.
  Qed.

  Lemma bbind_not_none {A B} (x : built A) (f : A -> B) : bbind x (fun a => Some (f a)) <> None <-> x <> None.
  Proof. destruct x; cbn; split; congruence. Qed.

  Lemma bbind2_not_none {A B C} (x : built A) (y : built B) (f : A -> B -> C) :
    bbind x (fun a => bbind y (fun b => Some (f a b))) <> None <-> x <> None /\ y <> None.
  Proof. destruct x, y; cbn; split; try tauto; try congruence; intros; split; congruence. Qed.

  Lemma get_cond_read c : each_value plain_value unquoted c ->
    (get_cond dates c <> None <-> each_value (read_value dates) (fun _ => True) c).
  Proof.
    induction c as [| |v|v|v|v|v|s|a IHa b IHb|a IHa b IHb|a IHa|a IHa]; cbn [each_value get_cond]; intro P;
      try (split; [tauto|discriminate]);
      try (rewrite bbind_not_none; now apply read_value_ok).
    - rewrite bbind2_not_none. destruct P. rewrite IHa, IHb by assumption. reflexivity.
    - rewrite bbind2_not_none. destruct P. rewrite IHa, IHb by assumption. reflexivity.
    - rewrite bbind_not_none. now apply IHa.
    - now apply IHa.
  Qed.

  Lemma get_cond_typed c d v : each_value plain_value unquoted c -> get_cond dates c = Some d ->
    (typed rx d v <-> gtyped dates rx c v).
  Proof.
    assert (V : forall g w, plain_value g -> get_value dates g = Some w -> (kin v w <-> exists w', means dates g w' /\ kin v w')).
    { intros g w P E. split.
      - intro K. exists w. split; [now apply get_value_ok|exact K].
      - intros [w' [M K]]. apply get_value_ok in M; [|exact P]. congruence. }
    revert d; induction c as [| |g|g|g|g|g|s|a IHa b IHb|a IHa b IHb|a IHa|a IHa]; intros d; cbn [each_value get_cond gtyped]; intros P E;
      try (injection E as <-; cbn [typed]; tauto);
      try (apply bbind_some in E as [w [E1 [= <-]]]; cbn [typed]; now apply V).
    - apply bbind_some in E as [w [E1 [= <-]]]. cbn [typed]. tauto.
    - injection E as <-. cbn [typed]. split.
      + intros [t [-> H]]. exists (remove_quotes s), t. split; [now apply spelled_plain|auto].
      + intros (p & t & S & -> & H). apply spelled_plain in S; [|exact P]. subst. eauto.
    - apply bbind_some in E as [x [E1 E]]. apply bbind_some in E as [y [E2 [= <-]]]. destruct P. cbn [typed].
      rewrite (IHa x), (IHb y) by assumption. reflexivity.
    - apply bbind_some in E as [x [E1 E]]. apply bbind_some in E as [y [E2 [= <-]]]. destruct P. cbn [typed].
      rewrite (IHa x), (IHb y) by assumption. reflexivity.
    - apply bbind_some in E as [x [E1 [= <-]]]. cbn [typed]. now apply IHa.
    - now apply IHa.
  Qed.

  Lemma get_cond_sat c d v : each_value plain_value unquoted c -> get_cond dates c = Some d ->
    (sat rx d v <-> gsat dates rx c v).
  Proof.
    assert (V : forall g w (P : value -> Prop), plain_value g -> get_value dates g = Some w -> (P w <-> exists w', means dates g w' /\ P w')).
    { intros g w Q P E. split.
      - intro K. exists w. split; [now apply get_value_ok|exact K].
      - intros [w' [M K]]. apply get_value_ok in M; [|exact P]. congruence. }
    revert d; induction c as [| |g|g|g|g|g|s|a IHa b IHb|a IHa b IHb|a IHa|a IHa]; intros d; cbn [each_value get_cond gsat]; intros P E;
      try (injection E as <-; cbn [sat]; tauto).
    - apply bbind_some in E as [w [E1 [= <-]]]. cbn [sat]. exact (V g w (fun w => before w v) P E1).
    - apply bbind_some in E as [w [E1 [= <-]]]. cbn [sat]. exact (V g w (fun w => before w v \/ kin v w /\ v = w) P E1).
    - apply bbind_some in E as [w [E1 [= <-]]]. cbn [sat]. exact (V g w (fun w => before v w) P E1).
    - apply bbind_some in E as [w [E1 [= <-]]]. cbn [sat]. exact (V g w (fun w => before v w \/ kin v w /\ v = w) P E1).
    - apply bbind_some in E as [w [E1 [= <-]]]. cbn [sat]. rewrite <- (get_value_ok g v P). split; congruence.
    - injection E as <-. cbn [sat]. split.
      + intros [t [-> H]]. exists (remove_quotes s), t. split; [now apply spelled_plain|auto].
      + intros (p & t & S & -> & H). apply spelled_plain in S; [|exact P]. subst. eauto.
    - apply bbind_some in E as [x [E1 E]]. apply bbind_some in E as [y [E2 [= <-]]]. destruct P. cbn [sat].
      rewrite (IHa x), (IHb y) by assumption. reflexivity.
    - apply bbind_some in E as [x [E1 E]]. apply bbind_some in E as [y [E2 [= <-]]]. destruct P. cbn [sat].
      rewrite (IHa x), (IHb y) by assumption. reflexivity.
    - apply bbind_some in E as [x [E1 [= <-]]]. cbn [sat]. rewrite (IHa x) by assumption. reflexivity.
    - now apply IHa.
  Qed.

  Lemma get_number_ok s n : get_number s = Some n -> numeral s (N.of_nat n).
  Proof.
    unfold get_number. destruct (parse_number max_usize s) as [m|] eqn:E; [|discriminate]. intros [= <-].
    rewrite N2Nat.id. now apply parse_number_ok in E.
  Qed.

  Lemma get_number_read s : get_number s <> None <-> in_range s.
  Proof.
    unfold get_number, in_range. split.
    - destruct (parse_number max_usize s) as [m|] eqn:E; [|congruence]. intros _. exists m. now apply parse_number_ok.
    - intros [n H]. apply parse_number_ok in H. rewrite H. discriminate.
  Qed.

  Lemma get_card_opt_ok c d n : get_card_opt c = Some d -> (fits d n <-> gfits c n).
  Proof.
    destruct c as [c|]; cbn [get_card_opt]; [|intros [= <-]; reflexivity].
    destruct c as [| | |s m]; cbn [get_card]; try (intros [= <-]; reflexivity).
    intro E. apply bbind_some in E as [lo [E1 E]]. apply bbind_some in E as [hi [E2 [= <-]]]. apply get_number_ok in E1.
    assert (L : lo <= n <-> exists l, numeral s l /\ (l <= N.of_nat n)%N).
    { split; [intro; exists (N.of_nat lo); split; [exact E1|lia]|]. intros [l [N L]]. rewrite (numeral_fun _ _ _ N E1) in L. lia. }
    destruct m as [s'|]; cbn [get_max] in E2.
    - apply bbind_some in E2 as [h [E2 [= <-]]]. apply get_number_ok in E2. cbn [fits gfits].
      assert (H : n <= h <-> exists l, numeral s' l /\ (N.of_nat n <= l)%N).
      { split; [intro; exists (N.of_nat h); split; [exact E2|lia]|]. intros [l [N H]]. rewrite (numeral_fun _ _ _ N E2) in H. lia. }
      rewrite L, H. reflexivity.
    - injection E2 as <-. cbn [fits gfits]. rewrite L. tauto.
  Qed.

  Lemma get_card_opt_read c : get_card_opt c <> None <-> each_opt read_card c.
  Proof.
    destruct c as [c|]; cbn [get_card_opt each_opt]; [|split; [tauto|discriminate]].
    destruct c as [| | |s m]; cbn [get_card read_card]; try (split; [tauto|discriminate]).
    rewrite bbind2_not_none, get_number_read. destruct m as [s'|]; cbn [get_max].
    - rewrite bbind_not_none, get_number_read. reflexivity.
    - split; intros [H _]; split; auto; discriminate.
  Qed.

  Lemma kind_allows k c n vs : fits c (length vs) <-> n ->
    (allows rx (kind_type k c) vs <-> n /\ forall v, In v vs -> of_kind k v).
  Proof.
    intro F. destruct k; cbn [kind_type allows]; rewrite F; (split; intros [H1 H2]; split; try exact H1; intros v I; specialize (H2 v I));
      try (destruct H2 as [? ->]; exact Logic.I); destruct v; cbn [of_kind] in H2; try contradiction; eauto.
  Qed.

  Lemma get_simple_ok t s vs : plain_simple t -> get_simple_type dates t = Some s ->
    (asks rx s vs <-> gallows dates rx t vs).
  Proof.
    assert (C : forall c d, each_value plain_value unquoted c -> get_cond dates c = Some d ->
      ((forall v, In v vs -> typed rx d v /\ sat rx d v) <-> forall v, In v vs -> gtyped dates rx c v /\ gsat dates rx c v)).
    { intros c d P E. split; intros H v I; specialize (H v I); now rewrite (get_cond_typed c d v P E), (get_cond_sat c d v P E) in *. }
    unfold plain_simple. destruct t as [k c check|check|c]; cbn [each_simple get_simple_type gallows].
    - intros [_ P] E. apply bbind_some in E as [d [E1 E]].
      pose proof (kind_allows k d (gfits c (length vs)) vs (get_card_opt_ok c d (length vs) E1)) as K.
      destruct check as [b|]; cbn [each_opt] in P.
      + apply bbind_some in E as [x [E2 [= <-]]]. cbn [asks gchecked]. rewrite K, (C b x P E2). tauto.
      + injection E as <-. cbn [asks gchecked]. rewrite K. tauto.
    - intros P E. destruct check as [b|]; cbn [each_opt] in P.
      + apply bbind_some in E as [x [E2 [= <-]]]. cbn [asks gchecked allows]. rewrite (C b x P E2). tauto.
      + injection E as <-. cbn [asks gchecked allows]. tauto.
    - intros P E. apply bbind_some in E as [x [E2 [= <-]]]. cbn [asks gchecked allows]. rewrite (C c x P E2). tauto.
  Qed.

  Lemma get_simple_read t : plain_simple t -> (get_simple_type dates t <> None <-> read_simple dates t).
  Proof.
    unfold plain_simple, read_simple. destruct t as [k c check|check|c]; cbn [each_simple get_simple_type].
    - intros [_ P]. destruct check as [b|]; cbn [each_opt] in *.
      + rewrite bbind2_not_none, get_card_opt_read, get_cond_read by exact P. reflexivity.
      + rewrite bbind_not_none, get_card_opt_read. tauto.
    - intro P. destruct check as [b|]; cbn [each_opt] in *.
      + rewrite bbind_not_none. now apply get_cond_read.
      + split; [tauto|discriminate].
    - intro P. rewrite bbind_not_none. now apply get_cond_read.
  Qed.

  Lemma get_type_ok t s vs : each_types plain_simple t -> get_type_spec dates t = Some s ->
    (asks rx s vs <-> gasks dates rx t vs).
  Proof.
    unfold each_types, get_type_spec, gasks. intros [P1 P2] E. apply bbind_some in E as [x [E1 E]].
    destruct (gt_more t) as [[u [m|]|u [m|]]|]; try contradiction.
    - cbn [get_more_types] in E. apply bbind_some in E as [y [E2 [= <-]]]. cbn [asks gthen].
      rewrite (get_simple_ok _ _ vs P1 E1), (get_simple_ok _ _ vs P2 E2). reflexivity.
    - cbn [get_more_types] in E. apply bbind_some in E as [y [E2 [= <-]]]. cbn [asks gthen].
      rewrite (get_simple_ok _ _ vs P1 E1), (get_simple_ok _ _ vs P2 E2). reflexivity.
    - injection E as <-. now apply get_simple_ok.
  Qed.

  Lemma get_type_read t : each_types plain_simple t -> (get_type_spec dates t <> None <-> each_types (read_simple dates) t).
  Proof.
    unfold each_types, get_type_spec. intros [P1 P2].
    destruct (gt_more t) as [[u [m|]|u [m|]]|]; try contradiction; cbn [get_more_types].
    - rewrite bbind2_not_none, !get_simple_read by assumption. reflexivity.
    - rewrite bbind2_not_none, !get_simple_read by assumption. reflexivity.
    - split.
      + intro H. split; [|exact Logic.I]. apply get_simple_read; [exact P1|]. intro E. rewrite E in H. now apply H.
      + intros [H _]. apply get_simple_read in H; [|exact P1]. destruct (get_simple_type dates (gt_first t)); [discriminate|congruence].
  Qed.

  Lemma get_props_read p : each_props (each_types plain_simple) p ->
    (get_property_value dates p <> None <-> each_props (each_types (read_simple dates)) p).
  Proof.
    induction p as [a IHa b IHb|a IHa b IHb|a IHa|o k t]; cbn [each_props get_property_value]; intro P.
    - rewrite bbind2_not_none. destruct P. rewrite IHa, IHb by assumption. reflexivity.
    - rewrite bbind2_not_none. destruct P. rewrite IHa, IHb by assumption. reflexivity.
    - now apply IHa.
    - rewrite (bbind_not_none (get_type_spec dates t) (fun x => if o then OptionalProperty k x else Property k x)). now apply get_type_read.
  Qed.

  Lemma get_spec_read s : kept s -> (get_label_property_spec dates s <> None <-> readable dates s).
  Proof.
    unfold kept, readable, get_label_property_spec. destruct s as [[l|] [p|]]; cbn [gs_labels gs_props each_opt].
    - intros [_ P]. rewrite (bbind_not_none (get_property_value dates p) (fun p => LContent (get_labels l) (PClosed p))). now apply get_props_read.
    - split; [tauto|discriminate].
    - intros [H _]. now destruct H.
    - split; [tauto|discriminate].
  Qed.

  (** ** Choices *)

  Definition conv (a : name * gtypes) (b : name * tspec) : Prop :=
    fst a = fst b /\ get_type_spec dates (snd a) = Some (snd b).

  Lemma picks_to p q o : get_property_value dates p = Some q -> gpicks p o -> exists o', picks q o' /\ Forall2 conv o o'.
  Proof.
    intros E H; revert q E; induction H as [a b o1 o2 H1 IH1 H2 IH2|a b o H IH|a b o H IH|a o H IH|o k t|k t]; intros q E; cbn [get_property_value] in E.
    - apply bbind_some in E as [x [E1 E]]. apply bbind_some in E as [y [E2 [= <-]]].
      destruct (IH1 _ E1) as [p1 [A1 B1]]. destruct (IH2 _ E2) as [p2 [A2 B2]]. exists (p1 ++ p2). split; [now constructor|now apply Forall2_app].
    - apply bbind_some in E as [x [E1 E]]. apply bbind_some in E as [y [E2 [= <-]]].
      destruct (IH _ E1) as [p1 [A1 B1]]. exists p1. split; [now apply picks_left|exact B1].
    - apply bbind_some in E as [x [E1 E]]. apply bbind_some in E as [y [E2 [= <-]]].
      destruct (IH _ E2) as [p1 [A1 B1]]. exists p1. split; [now apply picks_right|exact B1].
    - now apply IH.
    - apply bbind_some in E as [x [E1 [= <-]]]. exists [(k, x)]. split; [destruct o; constructor|]. constructor; [split; auto|constructor].
    - apply bbind_some in E as [x [E1 [= <-]]]. exists []. split; constructor.
  Qed.

  Lemma picks_from p q o' : get_property_value dates p = Some q -> picks q o' -> exists o, gpicks p o /\ Forall2 conv o o'.
  Proof.
    revert q o'; induction p as [a IHa b IHb|a IHa b IHb|a IHa|o k t]; intros q o' E H; cbn [get_property_value] in E.
    - apply bbind_some in E as [x [E1 E]]. apply bbind_some in E as [y [E2 [= <-]]]. inversion H as [? ? p1 p2 H1 H2| | | | | |]; subst.
      destruct (IHa _ _ E1 H1) as [o1 [A1 B1]]. destruct (IHb _ _ E2 H2) as [o2 [A2 B2]]. exists (o1 ++ o2). split; [now constructor|now apply Forall2_app].
    - apply bbind_some in E as [x [E1 E]]. apply bbind_some in E as [y [E2 [= <-]]]. inversion H as [|? ? p1 H1|? ? p1 H1| | | |]; subst.
      + destruct (IHa _ _ E1 H1) as [o1 [A1 B1]]. exists o1. split; [now apply gp_left|exact B1].
      + destruct (IHb _ _ E2 H1) as [o1 [A1 B1]]. exists o1. split; [now apply gp_right|exact B1].
    - destruct (IHa _ _ E H) as [o1 [A1 B1]]. exists o1. split; [now constructor|exact B1].
    - apply bbind_some in E as [x [E1 [= <-]]]. destruct o; inversion H; subst.
      + exists [(k, t)]. split; [constructor|]. constructor; [split; auto|constructor].
      + exists []. split; constructor.
      + exists [(k, t)]. split; [constructor|]. constructor; [split; auto|constructor].
  Qed.

  (** The names of the schema are those of the text. *)
  Definition names_ok (f : list gcreate) (sc : schema) : Prop :=
    forall t sp, defined sc (ident t) sp <-> exists s, In (GNode (Some t) s) f /\ get_label_property_spec dates s = Some sp.
  Definition file_kept (f : list gcreate) : Prop := forall t s, In (GNode t s) f -> kept s.

  Scheme lchooses_ind2 := Induction for lchooses Sort Prop
  with schooses_ind2 := Induction for schooses Sort Prop.

  Definition same (c : choice) (l : list name) (o : duties) : Prop :=
    c_labels c = l /\ c_open_labels c = false /\ c_open_keys c = false /\ Forall2 conv o (c_asks c).

  Lemma chooses_to f sc : names_ok f sc -> file_kept f -> (forall t s, In (GNode t s) f -> get_label_property_spec dates s <> None) ->
    forall s l o, schooses f s l o -> kept s -> forall sp, get_label_property_spec dates s = Some sp -> exists c, chooses sc sp c /\ same c l o.
  Proof.
    intros N K R.
    assert (BOTH : forall c l o o' o'', same c l o -> Forall2 conv o' o'' -> same (both c (mkChoice [] false o'' false)) l (o ++ o')).
    { intros c l o o' o'' (A & B & C & D) F. unfold same, both. cbn [c_labels c_open_labels c_asks c_open_keys].
      rewrite B, C, app_nil_r. repeat split; auto. now apply Forall2_app. }
    refine (schooses_ind2 f (fun g l o _ => exists c, chooses sc (get_labels g) c /\ same c l o)
              (fun s l o _ => kept s -> forall sp, get_label_property_spec dates s = Some sp -> exists c, chooses sc sp c /\ same c l o) _ _ _ _ _ _ _ _ _ _ _).
    - intros a b l1 l2 o1 o2 _ [c1 [A1 (B1 & C1 & D1 & E1)]] _ [c2 [A2 (B2 & C2 & D2 & E2)]]. exists (both c1 c2). split; [now constructor|].
      unfold same, both. cbn [c_labels c_open_labels c_asks c_open_keys]. rewrite B1, B2, C1, C2, D1, D2. repeat split; auto. now apply Forall2_app.
    - intros a b l o _ [c [A B]]. exists c. split; [now apply ch_left|exact B].
    - intros a b l o _ [c [A B]]. exists c. split; [now apply ch_right|exact B].
    - intros a l o _ H. exact H.
    - intros a l o _ H. exact H.
    - intro x. eexists. split; [constructor|]. repeat split. constructor.
    - intros t s l o I _ IH. specialize (IH (K _ _ I)). destruct (get_label_property_spec dates s) as [sp|] eqn:E; [|now destruct (R _ _ I)].
      destruct (IH sp eq_refl) as [c [A B]]. exists c. split; [|exact B]. cbn [get_labels]. eapply ch_ref; [|exact A]. apply N. eauto.
    - intros _ sp [= <-]. eexists. split; [constructor|]. repeat split. constructor.
    - intros g l o _ H _ sp [= <-]. exact H.
    - intros p o _ [H _]. now destruct H.
    - intros g p l o o' _ [c [A B]] H _ sp E. cbn [get_label_property_spec gs_labels gs_props] in E.
      apply bbind_some in E as [q [E [= <-]]]. destruct (picks_to _ _ _ E H) as [o'' [P F]].
      eexists. split; [apply ch_closed_content; [exact A|exact P]|]. now apply BOTH.
  Qed.

  Lemma chooses_from f sc : names_ok f sc -> file_kept f -> forall sp c, chooses sc sp c ->
    (forall g, get_labels g = sp -> exists l o, lchooses f g l o /\ same c l o) /\
    (forall s, kept s -> get_label_property_spec dates s = Some sp -> exists l o, schooses f s l o /\ same c l o).
  Proof.
    intros N K.
    assert (LIFT : forall sp c, (forall g, get_labels g = sp -> exists l o, lchooses f g l o /\ same c l o) ->
      (forall x p, sp <> LContent x p) -> sp <> LEmpty ->
      forall s, kept s -> get_label_property_spec dates s = Some sp -> exists l o, schooses f s l o /\ same c l o).
    { intros sp c H NC NE s Ks E. destruct s as [[g|] [p|]]; cbn [get_label_property_spec gs_labels gs_props] in E.
      - apply bbind_some in E as [q [_ [= <-]]]. now destruct (NC (get_labels g) (PClosed q)).
      - injection E as E. destruct (H g E) as [l [o [A B]]]. exists l, o. split; [now constructor|exact B].
      - injection E as E. congruence.
      - injection E as E. congruence. }
    induction 1 as [|x|t s c D C IH|s c C IH|s|a b c1 c2 C1 IH1 C2 IH2|a b c C IH|a b c C IH|s c C IH|s p c o C IH P|s p c o C IH P].
    - split.
      + intro g; induction g; cbn [get_labels]; intro E; try discriminate;
          (destruct (IHg E) as [l [o [A B]]]; exists l, o; split; [now constructor|exact B]).
      + intros s Ks E. destruct s as [[g|] [p|]]; cbn [get_label_property_spec gs_labels gs_props] in E.
        * apply bbind_some in E as [q [_ [=]]].
        * injection E as E. exfalso. clear -E. induction g; cbn [get_labels] in E; try discriminate; auto.
        * destruct Ks as [H _]. now destruct H.
        * exists [], []. split; [constructor|]. repeat split. constructor.
    - assert (H : forall g, get_labels g = LLabel x -> exists l o, lchooses f g l o /\ same (mkChoice [x] false [] false) l o).
      { intro g; induction g; cbn [get_labels]; intro E; try discriminate;
          try (destruct (IHg E) as [l' [o [A B]]]; exists l', o; split; [now constructor|exact B]).
        injection E as ->. exists [x], []. split; [constructor|]. repeat split. constructor. }
      split; [exact H|]. apply LIFT; [exact H|discriminate|discriminate].
    - assert (H : forall g, get_labels g = LRef t -> exists l o, lchooses f g l o /\ same c l o).
      { intro g; induction g; cbn [get_labels]; intro E; try discriminate;
          try (destruct (IHg E) as [l' [o [A B]]]; exists l', o; split; [now constructor|exact B]).
        injection E as <-. apply N in D as [s' [I E]]. destruct IH as [_ IH]. destruct (IH s' (K _ _ I) E) as [l [o [A B]]].
        exists l, o. split; [econstructor; eassumption|exact B]. }
      split; [exact H|]. apply LIFT; [exact H|discriminate|discriminate].
    - assert (H : forall g, get_labels g = LOptional s -> exists l o, lchooses f g l o /\ same c l o).
      { intro g; induction g; cbn [get_labels]; intro E; try discriminate;
          (destruct (IHg E) as [l' [o [A B]]]; exists l', o; split; [now constructor|exact B]). }
      split; [exact H|]. apply LIFT; [exact H|discriminate|discriminate].
    - assert (H : forall g, get_labels g = LOptional s -> exists l o, lchooses f g l o /\ same (mkChoice [] false [] false) l o).
      { intro g; induction g; cbn [get_labels]; intro E; try discriminate;
          (destruct (IHg E) as [l' [o [A B]]]; exists l', o; split; [now constructor|exact B]). }
      split; [exact H|]. apply LIFT; [exact H|discriminate|discriminate].
    - assert (H : forall g, get_labels g = LAnd a b -> exists l o, lchooses f g l o /\ same (both c1 c2) l o).
      { intro g; induction g; cbn [get_labels]; intro E; try discriminate;
          try (destruct (IHg E) as [l' [o [A B]]]; exists l', o; split; [now constructor|exact B]).
        injection E as E1 E2. destruct (proj1 IH1 _ E1) as [l1 [o1 [A1 (B1 & B2 & B3 & B4)]]].
        destruct (proj1 IH2 _ E2) as [l2 [o2 [A2 (D1 & D2 & D3 & D4)]]]. exists (l1 ++ l2), (o1 ++ o2). split; [now constructor|].
        unfold same, both. cbn [c_labels c_open_labels c_asks c_open_keys]. rewrite B1, B2, B3, D1, D2, D3. repeat split; auto. now apply Forall2_app. }
      split; [exact H|]. apply LIFT; [exact H|discriminate|discriminate].
    - assert (H : forall g, get_labels g = LOr a b -> exists l o, lchooses f g l o /\ same c l o).
      { intro g; induction g; cbn [get_labels]; intro E; try discriminate;
          try (destruct (IHg E) as [l' [o [A B]]]; exists l', o; split; [now constructor|exact B]).
        injection E as E1 E2. destruct (proj1 IH _ E1) as [l1 [o1 [A1 B1]]]. exists l1, o1. split; [now apply lc_left|exact B1]. }
      split; [exact H|]. apply LIFT; [exact H|discriminate|discriminate].
    - assert (H : forall g, get_labels g = LOr a b -> exists l o, lchooses f g l o /\ same c l o).
      { intro g; induction g; cbn [get_labels]; intro E; try discriminate;
          try (destruct (IHg E) as [l' [o [A B]]]; exists l', o; split; [now constructor|exact B]).
        injection E as E1 E2. destruct (proj1 IH _ E2) as [l1 [o1 [A1 B1]]]. exists l1, o1. split; [now apply lc_right|exact B1]. }
      split; [exact H|]. apply LIFT; [exact H|discriminate|discriminate].
    - assert (H : forall g, get_labels g <> LOpen s) by (intro g; induction g; cbn [get_labels]; congruence).
      split; [intros g E; now destruct (H g)|]. apply LIFT; [intros g E; now destruct (H g)|discriminate|discriminate].
    - assert (H : forall g, get_labels g <> LContent s (PClosed p)) by (intro g; induction g; cbn [get_labels]; congruence).
      split; [intros g E; now destruct (H g)|]. intros s' Ks E. destruct s' as [[g|] [q|]]; cbn [get_label_property_spec gs_labels gs_props] in E; try discriminate.
      + apply bbind_some in E as [q' [E1 E2]]. injection E2 as E2 ->. destruct (proj1 IH _ E2) as [l [o' [A (B1 & B2 & B3 & B4)]]].
        destruct (picks_from _ _ _ E1 P) as [o'' [G F]]. exists l, (o' ++ o''). split; [now constructor|].
        unfold same, both. cbn [c_labels c_open_labels c_asks c_open_keys]. rewrite B1, B2, B3, app_nil_r. repeat split; auto. now apply Forall2_app.
      + injection E as E. now destruct (H g).
    - assert (H : forall g, get_labels g <> LContent s (POpen p)) by (intro g; induction g; cbn [get_labels]; congruence).
      split; [intros g E; now destruct (H g)|]. intros s' Ks E. destruct s' as [[g|] [q|]]; cbn [get_label_property_spec gs_labels gs_props] in E; try discriminate.
      + apply bbind_some in E as [q' [E1 E2]]. discriminate.
      + injection E as E. now destruct (H g).
  Qed.

  Lemma gpicks_plain p o : each_props (each_types plain_simple) p -> gpicks p o -> forall k t, In (k, t) o -> each_types plain_simple t.
  Proof.
    intros P H; induction H as [a b o1 o2 H1 IH1 H2 IH2|a b o H IH|a b o H IH|a o H IH|o k' t'|k' t']; cbn [each_props] in P; intros k t I.
    - destruct P. apply in_app_or in I as [I|I]; eauto.
    - destruct P. eauto.
    - destruct P. eauto.
    - eauto.
    - destruct I as [E|[]]. injection E as <- <-. exact P.
    - destruct I.
  Qed.

  Lemma duties_plain f : file_kept f -> forall s l o, schooses f s l o -> kept s -> forall k t, In (k, t) o -> each_types plain_simple t.
  Proof.
    intro K.
    refine (schooses_ind2 f (fun g l o _ => forall k t, In (k, t) o -> each_types plain_simple t)
              (fun s l o _ => kept s -> forall k t, In (k, t) o -> each_types plain_simple t) _ _ _ _ _ _ _ _ _ _ _).
    - intros a b l1 l2 o1 o2 _ H1 _ H2 k t I. apply in_app_or in I as [I|I]; eauto.
    - eauto.
    - eauto.
    - eauto.
    - eauto.
    - intros x k t [].
    - intros t s l o I _ H. apply H. eapply K. exact I.
    - intros _ k t [].
    - eauto.
    - intros p o _ [H _]. now destruct H.
    - intros g p l o o' _ H G [_ P] k t I. apply in_app_or in I as [I|I]; [eauto|]. eapply gpicks_plain; eassumption.
  Qed.

  Lemma conv_in_left o o' k t : Forall2 conv o o' -> In (k, t) o -> exists s, In (k, s) o' /\ get_type_spec dates t = Some s.
  Proof.
    induction 1 as [|[k1 t1] [k2 s2] o o' [C1 C2] F IH]; [intros []|]. cbn [fst snd] in C1, C2. subst k2.
    intros [E|I]; [injection E as -> ->; exists s2; split; [now left|exact C2]|]. destruct (IH I) as [s [A B]]. exists s. split; [now right|exact B].
  Qed.

  Lemma conv_in_right o o' k s : Forall2 conv o o' -> In (k, s) o' -> exists t, In (k, t) o /\ get_type_spec dates t = Some s.
  Proof.
    induction 1 as [|[k1 t1] [k2 s2] o o' [C1 C2] F IH]; [intros []|]. cbn [fst snd] in C1, C2. subst k2.
    intros [E|I]; [injection E as -> ->; exists t1; split; [now left|exact C2]|]. destruct (IH I) as [t [A B]]. exists t. split; [now right|exact B].
  Qed.

  (** A specification built means what its text does. *)
  Lemma conforming_same f sc s sp n : names_ok f sc -> file_kept f ->
    (forall t s, In (GNode t s) f -> get_label_property_spec dates s <> None) -> kept s ->
    get_label_property_spec dates s = Some sp -> (conforming rx sc sp n <-> gconforming dates rx f s n).
  Proof.
    intros N K R Ks E. split.
    - intros [c [C [[L1 L2] [R1 R2]]]]. destruct (proj2 (chooses_from f sc N K sp c C) s Ks E) as [l [o [S (A1 & A2 & A3 & A4)]]].
      exists l, o. split; [exact S|]. subst l. split; [|split].
      + intro x. split; [apply L1|]. destruct L2 as [L2|L2]; [congruence|apply L2].
      + intros k t I. destruct (conv_in_left _ _ _ _ A4 I) as [ts [I' E']]. destruct (R1 k ts I') as [vs [V Q]]. exists vs. split; [exact V|].
        eapply get_type_ok; [|exact E'|exact Q]. eapply duties_plain; eassumption.
      + intros k Hk. destruct R2 as [R2|R2]; [congruence|]. destruct (R2 k Hk) as [ts I]. destruct (conv_in_right _ _ _ _ A4 I) as [t [I' _]]. eauto.
    - intros [l [o [S [L [Q1 Q2]]]]]. destruct (chooses_to f sc N K R s l o S Ks sp E) as [c [C (A1 & A2 & A3 & A4)]].
      exists c. split; [exact C|]. subst l. split; [|split].
      + split; [intros x I; now apply L|]. right. intros x I. now apply L.
      + intros k ts I. destruct (conv_in_right _ _ _ _ A4 I) as [t [I' E']]. destruct (Q1 k t I') as [vs [V Q]]. exists vs. split; [exact V|].
        eapply get_type_ok; [|exact E'|exact Q]. eapply duties_plain; eassumption.
      + right. intros k Hk. destruct (Q2 k Hk) as [t I]. destruct (conv_in_left _ _ _ _ A4 I) as [ts [I' _]]. eauto.
  Qed.
End Readings.
