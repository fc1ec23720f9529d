(** Sentences are read as what they mean, and what is read is a sentence. *)
From Coq Require Import List NArith Bool Lia.
From Verif Require Import LexModel LexSpec LexCore LexLemmas LexNames LexPn LexLocal LexIri LexRest LexPrint SmModel SmSpec SmLemmas.
Import ListNotations.
Local Open Scope N_scope.

(** * What is read is a sentence *)

Notation loose := False.
Lemma iri_takes : forall i v r, iri i = Ok v r -> takes IRI i r v.
Proof. intros i v r H. destruct (reads_ok _ _ _ _ _ _ _ reads_iri H) as (w & L & V). exists w. auto. Qed.
Lemma label_takes : forall i v r, blank_node_label i = Ok v r -> takes label_dots i r v.
Proof. intros i v r H. destruct (reads_ok _ _ _ _ _ _ _ reads_label H) as (w & L & V). exists w. auto. Qed.
Lemma string_takes : forall i v r, string i = Ok v r -> takes (strings 0) i r v.
Proof. intros i v r H. destruct (reads_ok _ _ _ _ _ _ _ reads_string H) as (w & L & V). exists w. auto. Qed.

Lemma alt_ok : forall A (p q : parser A) i v r, alt p q i = Ok v r -> p i = Ok v r \/ q i = Ok v r.
Proof. intros A p q i v r H. unfold alt in H. destruct (p i); auto; discriminate. Qed.
Lemma pmap_ok : forall A B (f : A -> B) p i v r, pmap f p i = Ok v r -> exists a, v = f a /\ p i = Ok a r.
Proof. intros A B f p i v r H. unfold pmap in H. destruct (p i) as [a r0| | |]; inversion H; subst. eauto. Qed.
Lemma bind_ok : forall A B (x : res A) (k : A -> parser B) v r, bind x k = Ok v r -> exists a j, x = Ok a j /\ k a j = Ok v r.
Proof. intros A B x k v r H. destruct x as [a j| | |]; cbn in H; try discriminate. eauto. Qed.

Lemma is_inv : forall c i v r, is c i = Ok v r -> i = c :: r.
Proof.
  intros c [|d i] v r H; [discriminate|]. unfold is, satisfy in H. destruct (N.eqb_spec c d) as [<-|]; [|discriminate]. injection H as _ <-. reflexivity.
Qed.

Lemma literal_sound : forall i v r, clean i -> literal i = Ok v r -> exists j, literal_at loose i j v /\ skip j r.
Proof.
  intros i v r C H. apply alt_ok in H. destruct H as [H|H]; [|apply alt_ok in H; destruct H as [H|H]].
  - destruct (reads_ok _ _ _ _ _ _ _ reads_literal H) as (w & L & V). exists r. split; [apply lit_string; exists w; auto|constructor].
  - apply pmap_ok in H. destruct H as ((s & k) & -> & H). destruct (reads_ok _ _ _ _ _ _ _ reads_number H) as (w & L & V). exists r.
    split; [apply lit_number; exists w; auto|constructor].
  - apply alt_ok in H. destruct H as [H|H]; apply pmap_ok in H; destruct H as (u & -> & H); apply token_reads in H; destruct H as (j & Sk & Sk2 & _);
      exists j; split; try assumption; rewrite <- (C _ Sk); [apply lit_true|apply lit_false]; intros [].
Qed.
Lemma object_sound : forall i v r, clean i -> node_or_wildcard i = Ok v r -> exists j, object_at loose i j v /\ skip j r.
Proof.
  intros i v r C H. apply alt_ok in H. destruct H as [H|H]; apply pmap_ok in H; destruct H as (x & -> & H).
  - apply alt_ok in H. destruct H as [H|H]; apply pmap_ok in H; destruct H as (y & -> & H).
    + exists r. split; [apply obj_iri, iri_takes, H|constructor].
    + destruct (literal_sound _ _ _ C H) as (j & L & Sk). exists j. split; [apply obj_lit, L|exact Sk].
  - apply token_reads in H. destruct H as (j & Sk & Sk2 & _). exists j. split; [|exact Sk2]. rewrite <- (C _ Sk). constructor.
Qed.
Lemma predicate_sound : forall i v r, predicate i = Ok v r -> predicate_at loose i r v.
Proof.
  intros i v r H. apply alt_ok in H. destruct H as [H|H]; [apply pred_iri, iri_takes, H|]. apply pmap_ok in H. destruct H as (x & -> & H).
  destruct (tag_spec [97] i) as [(j & -> & EQ)|(EQ & _)]; rewrite EQ in H; [|discriminate]. injection H as _ <-. apply pred_a. intros [].
Qed.
Lemma triple_sound : forall i v r, clean i -> alt focus_object subject_focus i = Ok v r -> exists j, triple_at loose i j v /\ skip j r.
Proof.
  intros i v r C H. apply alt_ok in H. destruct H as [H|H].
  - unfold focus_object in H. apply bind_ok in H. destruct H as (u & i2 & H1 & H). destruct (keyword_reads _ _ _ _ letters_focus C H1) as (j1 & K & Sk1 & C1).
    rewrite (tws0_clean _ C1) in H. cbn [bind] in H. apply bind_ok in H. destruct H as (p & i4 & H2 & H). apply predicate_sound in H2.
    apply bind_ok in H. destruct H as (u2 & i5 & H3 & H). apply tws0_ok in H3. destruct H3 as (Sk3 & C3).
    apply bind_ok in H. destruct H as (o & i6 & H4 & H). injection H as <- <-. destruct (object_sound _ _ _ C3 H4) as (j & O & Sk). exists j.
    split; [eapply focus_first; eassumption|exact Sk].
  - unfold subject_focus in H. apply bind_ok in H. destruct H as (s & i2 & H1 & H). destruct (object_sound _ _ _ C H1) as (j1 & O & Sk1).
    apply bind_ok in H. destruct H as (u & i3 & H2 & H). apply tws0_ok in H2. destruct H2 as (Sk2 & C2).
    apply bind_ok in H. destruct H as (p & i4 & H3 & H). apply predicate_sound in H3.
    apply bind_ok in H. destruct H as (u2 & i5 & H4 & H). apply tws0_ok in H4. destruct H4 as (Sk4 & C4).
    apply bind_ok in H. destruct H as (u3 & i6 & H5 & H). injection H as <- <-. destruct (keyword_reads _ _ _ _ letters_focus C4 H5) as (j & K & Sk & _).
    exists j. split; [|exact Sk]. eapply focus_last; [intros []|exact O|eapply skip_trans; eassumption|exact H3|exact Sk4|exact K].
Qed.
Lemma node_sound : forall i v r, clean i -> node_selector i = Ok v r -> exists j, node_at loose i j v /\ skip j r.
Proof.
  intros i v r C H. apply alt_ok in H. destruct H as [H|H]; [apply alt_ok in H; destruct H as [H|H]; [apply alt_ok in H; destruct H as [H|H]|]|].
  - apply pmap_ok in H. destruct H as (l & -> & H). exists r. split; [apply node_bnode, label_takes, H|constructor].
  - apply pmap_ok in H. destruct H as (x & -> & H). exists r. split; [apply node_iri, iri_takes, H|constructor].
  - apply pmap_ok in H. destruct H as (l & -> & H). destruct (literal_sound _ _ _ C H) as (j & L & Sk). exists j. split; [apply node_literal, L|exact Sk].
  - apply alt_ok in H. destruct H as [H|H].
    + unfold triple_pattern in H. apply bind_ok in H. destruct H as (c & i1 & H1 & H).
      pose proof (is_inv _ _ _ _ H1) as E.
      apply bind_ok in H. destruct H as (u & i2 & H2 & H). apply tws0_ok in H2. destruct H2 as (Sk2 & C2).
      apply bind_ok in H. destruct H as (t & i3 & H3 & H). destruct (triple_sound _ _ _ C2 H3) as (j & T & Sk3).
      apply bind_ok in H. destruct H as (u2 & i4 & H4 & H). apply tws0_ok in H4. destruct H4 as (Sk4 & _).
      apply bind_ok in H. destruct H as (c2 & i5 & H5 & H). injection H as <- <-.
      pose proof (is_inv _ _ _ _ H5) as E2.
      subst. exists i5. split; [|constructor]. eapply node_triple; [exact Sk2|exact T|]. eapply skip_trans; eassumption.
    + unfold extended in H. apply bind_ok in H. destruct H as (u & i2 & H1 & H). destruct (keyword_reads _ _ _ _ letters_sparql C H1) as (j & K & Sk & C2).
      rewrite (tws0_clean _ C2) in H. cbn [bind] in H. apply pmap_ok in H. destruct H as (q & -> & H). exists r. split; [|constructor].
      eapply node_sparql; [exact K|exact Sk|]. apply string_takes, H.
Qed.
Lemma shape_sound : forall i v r, clean i -> shape_spec i = Ok v r -> exists j, shape_at loose i j v /\ skip j r.
Proof.
  intros i v r C H. apply alt_ok in H. destruct H as [H|H]; apply pmap_ok in H; destruct H as (x & -> & H).
  - apply alt_ok in H. destruct H as [H|H]; apply pmap_ok in H; destruct H as (y & -> & H); exists r; (split; [|constructor]).
    + apply shape_iri, iri_takes, H.
    + apply shape_bnode, label_takes, H.
  - destruct (keyword_reads _ _ _ _ letters_start C H) as (j & K & Sk & _). exists j. split; [|exact Sk]. apply shape_start; [exact K|intros []].
Qed.
Lemma pair_sound : forall i v r, clean i -> association i = Ok v r -> exists j, pair_at loose i j v /\ skip j r.
Proof.
  intros i v r C H. unfold association in H. apply bind_ok in H. destruct H as (n & i2 & H1 & H). destruct (node_sound _ _ _ C H1) as (j1 & N & Sk1).
  apply bind_ok in H. destruct H as (u & i4 & H2 & H). apply token_reads in H2. destruct H2 as (i3 & Sk2 & Sk3 & C4).
  apply pmap_ok in H. destruct H as (s & -> & H). destruct (shape_sound _ _ _ C4 H) as (j & Sh & Sk). exists j. split; [|exact Sk].
  econstructor; [exact N|eapply skip_trans; [exact Sk1|exact Sk2]|exact Sk3|exact Sh].
Qed.

(** The pairs that follow the first one. *)
Inductive tail_at (strict : Prop) : str -> str -> list assoc -> Prop :=
| tail_nil i : tail_at strict i i []
| tail_cons i1 i2 i3 i4 r a l : skip i1 (44 :: i2) -> skip i2 i3 -> pair_at strict i3 i4 a -> tail_at strict i4 r l -> tail_at strict i1 r (a :: l).
Lemma tail_pairs : forall strict l i j r a, pair_at strict i j a -> tail_at strict j r l -> pairs_at strict i r (a :: l).
Proof.
  intros strict l. induction l as [|b l IH]; intros i j r a P T; inversion T; subst; [apply pairs_one, P|].
  eapply pairs_more; [exact P|eassumption|eassumption|]. eapply IH; eassumption.
Qed.
Lemma pairs_tail : forall strict i r l, pairs_at strict i r l -> exists a l' j, l = a :: l' /\ pair_at strict i j a /\ tail_at strict j r l'.
Proof.
  intros strict i r l H. induction H as [i r a P|i1 i2 i3 i4 r a l P Sk1 Sk2 Ps (b & l' & j & -> & P' & T)].
  - exists a, [], r. split; [reflexivity|split; [exact P|constructor]].
  - exists a, (b :: l'), i2. split; [reflexivity|split; [exact P|econstructor; eassumption]].
Qed.
Lemma tail_skip : forall strict i i' r l, skip i i' -> tail_at strict i' r l -> exists r', tail_at strict i r' l /\ (l <> [] -> r' = r) /\ skip r' r.
Proof.
  intros strict i i' r l Sk T. inversion T; subst.
  - exists i. split; [constructor|split; [congruence|exact Sk]].
  - exists r. split; [|split; [auto|constructor]]. econstructor; [eapply skip_trans; [exact Sk|eassumption]|eassumption..].
Qed.
Lemma many_sound : forall n i l r, many n next_association i = Ok l r -> exists j, tail_at loose i j l /\ skip j r.
Proof.
  induction n as [|n IH]; intros i l r H; [discriminate|]. cbn [many] in H. destruct (next_association i) as [a i'| | |] eqn:E; try discriminate.
  - destruct (Nat.eqb (length i') (length i)); [discriminate|]. apply pmap_ok in H. destruct H as (l' & -> & H). destruct (IH _ _ _ H) as (j & T & Sk).
    unfold next_association in E. apply bind_ok in E. destruct E as (u & i3 & H1 & E). apply token_reads in H1. destruct H1 as (i2 & Sk1 & Sk2 & C).
    rewrite (tws0_clean _ C) in E. cbn [bind] in E. destruct (pair_sound _ _ _ C E) as (i4 & P & Sk4).
    destruct (tail_skip _ _ _ _ _ Sk4 T) as (j' & T' & _ & Sk5). exists j'. split; [|eapply skip_trans; eassumption].
    econstructor; [exact Sk1|exact Sk2|exact P|exact T'].
  - injection H as <- <-. exists i. split; constructor.
Qed.
Theorem statements_sound : forall t l, statements t = Done l -> sentence loose t l.
Proof.
  intros t l H. unfold statements in H. destruct (tws0_step t) as (i & E & Sk & C). rewrite E in H. cbn [bind] in H.
  destruct (shapemap_statement i) as [v z| | |] eqn:S; try discriminate. injection H as ->. unfold shapemap_statement in S.
  apply bind_ok in S. destruct S as (a & i1 & H1 & S). destruct (pair_sound _ _ _ C H1) as (j1 & P & Sk1).
  apply bind_ok in S. destruct S as (u & i2 & H2 & S). apply tws0_ok in H2. destruct H2 as (Sk2 & _).
  apply bind_ok in S. destruct S as (l' & i3 & H3 & S). destruct (many_sound _ _ _ _ H3) as (j3 & T & Sk3).
  destruct (tail_skip _ _ _ _ _ (skip_trans _ _ _ Sk1 Sk2) T) as (r & T' & _ & Sk3').
  apply bind_ok in S. destruct S as (u2 & i4 & H4 & S). apply tws0_ok in H4. destruct H4 as (Sk4 & _).
  apply bind_ok in S. destruct S as (o & i5 & H5 & S). apply bind_ok in S. destruct S as (u3 & i6 & H6 & S). apply tws0_ok in H6. destruct H6 as (Sk6 & _).
  destruct i6; [|discriminate]. injection S as <- _.
  assert (Sk7 : skip r i4) by (eapply skip_trans; [exact Sk3'|eapply skip_trans; [exact Sk3|exact Sk4]]).
  exists i, r. split; [exact Sk|split; [eapply tail_pairs; eassumption|]].
  unfold popt in H5. destruct (is 44 i4) as [c i5'| | |] eqn:E5; try discriminate.
  - right. injection H5 as _ <-. apply is_inv in E5. rewrite E5 in Sk7. exists i5'. split; [exact Sk7|exact Sk6].
  - left. injection H5 as _ <-. eapply skip_trans; eassumption.
Qed.
