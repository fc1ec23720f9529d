(** Readers of languages in which no word is the beginning of another. *)
From Coq Require Import List NArith ZArith Bool Lia.
From Verif Require Import LexModel LexSpec.
Import ListNotations.
Local Open Scope N_scope.

Definition scan {A} (bad : str -> Prop) (p : parser A) (L : lang A) : Prop := forall i,
  match p i with
  | Ok v r => exists w, i = w ++ r /\ L w v /\ forall w' r' v', i = w' ++ r' -> L w' v' -> w' = w /\ v' = v
  | Err => forall w r v, i = w ++ r -> ~ L w v
  | Fail => False
  | Panic => bad i
  end.
Definition apart {A B} (L : lang A) (M : lang B) : Prop := forall w1 r1 w2 r2 v1 v2,
  w1 ++ r1 = w2 ++ r2 -> L w1 v1 -> M w2 v2 -> False.
Definition proper {A} (L : lang A) : Prop := forall w v, L w v -> w <> [].
Definition onward (bad : str -> Prop) : Prop := forall a i, bad i -> bad (a ++ i).

Lemma never_on : onward never. Proof. intros a i H. exact H. Qed.
Lemma no_character_on : onward no_character.
Proof. intros a i (x & w & b & n & E & H). exists (a ++ x), w, b, n. subst i. rewrite app_assoc. split; [|exact H]. reflexivity. Qed.
#[export] Hint Resolve never_on no_character_on : lex.

Lemma used_app : forall w r, used (w ++ r) r = w.
Proof.
  intros w r. unfold used. rewrite app_length. replace (length w + length r - length r)%nat with (length w) by lia.
  rewrite firstn_app, Nat.sub_diag, firstn_all. cbn. apply app_nil_r.
Qed.

Lemma app_cancel : forall (w w' r r' : str), w ++ r = w' ++ r' -> length w = length w' -> w = w' /\ r = r'.
Proof.
  induction w as [|c w IH]; intros [|c' w'] r r' E H; cbn in *; try discriminate; [auto|].
  injection E as -> E. destruct (IH _ _ _ E ltac:(lia)) as (-> & ->). auto.
Qed.
Lemma app_short : forall (w w' r r' : str), w ++ r = w' ++ r' -> (length w <= length w')%nat -> exists m, w' = w ++ m /\ r = m ++ r'.
Proof.
  induction w as [|c w IH]; intros w' r r' E H; cbn in *; [eauto|].
  destruct w' as [|c' w']; cbn in *; [lia|]. injection E as -> E. destruct (IH _ _ _ E ltac:(lia)) as (m & -> & ->). eauto.
Qed.

Lemma scan_weaken : forall A (bad bad' : str -> Prop) (p : parser A) L,
  (forall i, bad i -> bad' i) -> scan bad p L -> scan bad' p L.
Proof. intros A bad bad' p L H S i. specialize (S i). destruct (p i); auto. Qed.
Lemma scan_equiv : forall A bad (p : parser A) L M, (forall w v, L w v <-> M w v) -> scan bad p L -> scan bad p M.
Proof.
  intros A bad p L M H S i. specialize (S i). destruct (p i).
  - destruct S as (w & E & Lw & U). exists w. split; [exact E|split; [apply H, Lw|]]. intros; eapply U; [eassumption|apply H; assumption].
  - intros w r v E Mw. apply (S w r v E), H, Mw.
  - exact S.
  - exact S.
Qed.
Lemma scan_ext : forall A bad (p q : parser A) L, (forall i, p i = q i) -> scan bad p L -> scan bad q L.
Proof. intros A bad p q L H S i. rewrite <- H. apply S. Qed.

Lemma scan_satisfy : forall bad f (P : char -> Prop), (forall c, f c = true <-> P c) -> scan bad (satisfy f) (one P).
Proof.
  intros bad f P H [|c r]; cbn.
  - intros w r v E (-> & _). discriminate.
  - destruct (f c) eqn:F.
    + exists [c]. split; [reflexivity|split; [split; [reflexivity|apply H, F]|]].
      intros w' r' v' E (-> & Pv). cbn in E. injection E as -> E. auto.
    + intros w r' v E (-> & Pv). cbn in E. injection E as -> E. apply H in Pv. congruence.
Qed.
Lemma tag_app : forall t r, tag t (t ++ r) = Ok t r.
Proof. induction t as [|c t IH]; intros r; cbn; [reflexivity|]. rewrite N.eqb_refl. unfold pmap. rewrite IH. reflexivity. Qed.
Lemma tag_spec : forall t i, (exists r, i = t ++ r /\ tag t i = Ok t r) \/ tag t i = Err /\ forall r, i <> t ++ r.
Proof.
  induction t as [|c t IH]; intros i; cbn.
  - left. eauto.
  - destruct i as [|d i]; [right; split; [reflexivity|discriminate]|].
    destruct (N.eqb_spec c d) as [->|N].
    + unfold pmap. destruct (IH i) as [(r & -> & ->)|(-> & H)]; [left; eauto|right; split; [reflexivity|]].
      intros r E. injection E as E. exact (H r E).
    + right. split; [reflexivity|]. intros r E. injection E as <- E. contradiction.
Qed.
Lemma scan_tag : forall bad t, scan bad (tag t) (fun w v => w = t /\ v = t).
Proof.
  intros bad t i. destruct (tag_spec t i) as [(r & E & ->)|(-> & H)].
  - exists t. split; [exact E|split; [auto|]]. intros w' r' v' _ (-> & ->). auto.
  - intros w r v E (-> & _). exact (H r E).
Qed.
Lemma scan_pmap : forall A B bad (f : A -> B) p L, scan bad p L -> scan bad (pmap f p) (fun w v => exists a, v = f a /\ L w a).
Proof.
  intros A B bad f p L S i. specialize (S i). unfold pmap. destruct (p i) as [a r| | |]; [|intros w r v E (a & _ & H); exact (S w r a E H)|exact S|exact S].
  destruct S as (w & E & Lw & U). exists w. split; [exact E|split; [eauto|]].
  intros w' r' v' E' (a' & -> & H). destruct (U _ _ _ E' H) as (-> & ->). auto.
Qed.
Lemma scan_bind : forall A B bad (p : parser A) (k : A -> parser B) L M, onward bad ->
  scan bad p L -> (forall a, scan bad (k a) (M a)) ->
  scan bad (fun i => bind (p i) k) (fun w v => exists w1 w2 a, w = w1 ++ w2 /\ L w1 a /\ M a w2 v).
Proof.
  intros A B bad p k L M On S T i. specialize (S i). unfold bind. destruct (p i) as [a r| | |].
  - destruct S as (w & E & Lw & U). specialize (T a r). destruct (k a r) as [b r'| | |].
    + destruct T as (w2 & E2 & Mw & V). exists (w ++ w2). split; [subst; apply app_assoc|split; [exists w, w2, a; auto|]].
      intros w' r'' v' E' (u1 & u2 & a' & -> & Lu & Mu). rewrite <- app_assoc in E'.
      destruct (U _ _ _ E' Lu) as (-> & ->). rewrite E in E'. apply app_inv_head in E'.
      destruct (V _ _ _ E' Mu) as (-> & ->). auto.
    + intros w' r'' v' E' (u1 & u2 & a' & -> & Lu & Mu). rewrite <- app_assoc in E'.
      destruct (U _ _ _ E' Lu) as (-> & ->). rewrite E in E'. apply app_inv_head in E'. exact (T _ _ _ E' Mu).
    + exact T.
    + subst i. apply On, T.
  - intros w' r' v' E (u1 & u2 & a & -> & Lu & _). rewrite <- app_assoc in E. exact (S _ _ _ E Lu).
  - exact S.
  - exact S.
Qed.
Lemma scan_alt : forall A bad (p q : parser A) L M, scan bad p L -> scan bad q M -> apart L M -> scan bad (alt p q) (either L M).
Proof.
  intros A bad p q L M S T D i. specialize (S i). specialize (T i). unfold alt. destruct (p i) as [a r| | |]; [|..].
  - destruct S as (w & E & Lw & U). exists w. split; [exact E|split; [left; exact Lw|]].
    intros w' r' v' E' [H|H]; [exact (U _ _ _ E' H)|]. exfalso. eapply (D w r w' r'); [congruence|exact Lw|exact H].
  - destruct (q i) as [a r| | |].
    + destruct T as (w & E & Mw & U). exists w. split; [exact E|split; [right; exact Mw|]].
      intros w' r' v' E' [H|H]; [exfalso; exact (S _ _ _ E' H)|exact (U _ _ _ E' H)].
    + intros w r v E [H|H]; [exact (S _ _ _ E H)|exact (T _ _ _ E H)].
    + exact T.
    + exact T.
  - destruct S.
  - exact S.
Qed.

(** Repetitions. *)
Lemma many_spec : forall A bad (p : parser A) L, onward bad -> scan bad p L -> proper L -> forall n i, (length i < n)%nat ->
  match many n p i with
  | Ok vs r => exists w, i = w ++ r /\ star L w vs /\ (forall w' r' v, r = w' ++ r' -> ~ L w' v) /\
      (forall w' r' vs', i = w' ++ r' -> star L w' vs' -> exists m ms, w = w' ++ m /\ vs = vs' ++ ms /\ star L m ms)
  | Panic => bad i
  | _ => False
  end.
Proof.
  intros A bad p L On S Pr. induction n as [|n IH]; intros i H; [lia|]. cbn [many].
  pose proof (S i) as Si. destruct (p i) as [v r| | |].
  - destruct Si as (w & E & Lw & U). assert (Hl : (length r < length i)%nat).
    { subst i. rewrite app_length. destruct w as [|c w]; [destruct (Pr _ _ Lw eq_refl)|cbn; lia]. }
    destruct (Nat.eqb_spec (length r) (length i)); [lia|]. unfold pmap. specialize (IH r ltac:(lia)).
    destruct (many n p r) as [vs r2| | |]; [|exact IH|exact IH|subst i; apply On, IH].
    destruct IH as (w2 & E2 & St & No & Pre). exists (w ++ w2).
    split; [subst; apply app_assoc|split; [constructor; assumption|split; [exact No|]]].
    intros w' r' vs' E' St'. destruct St' as [|u x us xs Lu Su].
    + exists (w ++ w2), (v :: vs). split; [reflexivity|split; [reflexivity|constructor; assumption]].
    + rewrite <- app_assoc in E'. destruct (U _ _ _ E' Lu) as (-> & ->). rewrite E in E'. apply app_inv_head in E'.
      destruct (Pre _ _ _ E' Su) as (m & ms & -> & -> & Sm). exists m, ms. split; [apply app_assoc|split; [reflexivity|exact Sm]].
  - exists []. split; [reflexivity|split; [constructor|split; [exact Si|]]].
    intros w' r' vs' E' St'. destruct St' as [|u x us xs Lu Su].
    + exists [], []. split; [reflexivity|split; [reflexivity|constructor]].
    + exfalso. rewrite <- app_assoc in E'. exact (Si _ _ _ E' Lu).
  - exact Si.
  - exact Si.
Qed.
Lemma many0_spec : forall A bad (p : parser A) L i, onward bad -> scan bad p L -> proper L ->
  match many0 p i with
  | Ok vs r => exists w, i = w ++ r /\ star L w vs /\ (forall w' r' v, r = w' ++ r' -> ~ L w' v) /\
      (forall w' r' vs', i = w' ++ r' -> star L w' vs' -> exists m ms, w = w' ++ m /\ vs = vs' ++ ms /\ star L m ms)
  | Panic => bad i
  | _ => False
  end.
Proof. intros. unfold many0. eapply many_spec; eauto. Qed.

(** Up to a word that starts none of the repetitions. *)
Lemma scan_until : forall A B bad (p : parser A) (q : parser B) L M, onward bad ->
  scan bad p L -> scan bad q M -> proper L -> apart L M ->
  scan bad (fun i => bind (many0 p i) (fun vs i => bind (q i) (fun _ r => Ok vs r)))
    (fun w vs => exists w1 w2 x, w = w1 ++ w2 /\ star L w1 vs /\ M w2 x).
Proof.
  intros A B bad p q L M On S T Pr D i. pose proof (many0_spec _ _ _ _ i On S Pr) as Mi. unfold bind.
  destruct (many0 p i) as [vs r| | |]; [|destruct Mi|destruct Mi|exact Mi].
  destruct Mi as (w & E & St & No & Pre).
  assert (K : forall w' r' vs' x w2, i = w' ++ w2 ++ r' -> star L w' vs' -> M w2 x -> w' = w /\ vs' = vs).
  { intros w' r' vs' x w2 E' St' Mw. destruct (Pre _ _ _ E' St') as (m & ms & -> & -> & Sm). destruct Sm as [|u y us ys Lu Su].
    - rewrite !app_nil_r. auto.
    - exfalso. rewrite E in E'. rewrite <- !app_assoc in E'. apply app_inv_head in E'.
      eapply D; [exact E'|exact Lu|exact Mw]. }
  specialize (T r). destruct (q r) as [b r2| | |].
  - destruct T as (w2 & E2 & Mw & U). exists (w ++ w2). split; [subst; apply app_assoc|split; [exists w, w2, b; auto|]].
    intros w' r' vs' E' (u1 & u2 & x & -> & Su & Mu). rewrite <- app_assoc in E'.
    destruct (K _ _ _ _ _ E' Su Mu) as (-> & ->). rewrite E in E'. apply app_inv_head in E'.
    destruct (U _ _ _ E' Mu) as (-> & _). auto.
  - intros w' r' vs' E' (u1 & u2 & x & -> & Su & Mu). rewrite <- app_assoc in E'.
    destruct (K _ _ _ _ _ E' Su Mu) as (-> & ->). rewrite E in E'. apply app_inv_head in E'. exact (T _ _ _ E' Mu).
  - exact T.
  - subst i. apply On, T.
Qed.

(** From readers of this kind to the longest word. *)
Lemma reads_scan : forall A bad (p : parser A) L, scan bad p L -> reads bad p L.
Proof.
  intros A bad p L S i. specialize (S i). destruct (p i); [|exact S|destruct S|exact S].
  destruct S as (w & E & Lw & U). exists w. split; [exact E|split].
  - intros v'. split; [intros H; exact (proj2 (U _ _ _ E H))|intros ->; exact Lw].
  - intros w' r' v' E' H. destruct (U _ _ _ E' H) as (-> & _). lia.
Qed.
Lemma reads_weaken : forall A (bad bad' : str -> Prop) (p : parser A) L,
  (forall i, bad i -> bad' i) -> reads bad p L -> reads bad' p L.
Proof. intros A bad bad' p L H S i. specialize (S i). destruct (p i); auto. Qed.
Lemma reads_equiv : forall A bad (p : parser A) L M, (forall w v, L w v <-> M w v) -> reads bad p L -> reads bad p M.
Proof.
  intros A bad p L M H S i. specialize (S i). destruct (p i).
  - destruct S as (w & E & Lw & U). exists w. split; [exact E|split].
    + intros v'. rewrite <- H. apply Lw.
    + intros w' r' v' E' Mw. apply H in Mw. exact (U _ _ _ E' Mw).
  - intros w r v E Mw. apply (S w r v E), H, Mw.
  - intros w r v E Mw. apply (S w r v E), H, Mw.
  - exact S.
Qed.
Lemma reads_ext : forall A bad (p q : parser A) L, (forall i, p i = q i) -> reads bad p L -> reads bad q L.
Proof. intros A bad p q L H S i. rewrite <- H. apply S. Qed.
Lemma reads_bind : forall A B bad (p : parser A) (k : A -> parser B) L M, onward bad ->
  scan bad p L -> (forall a, reads bad (k a) (M a)) ->
  reads bad (fun i => bind (p i) k) (fun w v => exists w1 w2 a, w = w1 ++ w2 /\ L w1 a /\ M a w2 v).
Proof.
  intros A B bad p k L M On S T i. specialize (S i). unfold bind. destruct (p i) as [a r| | |].
  - destruct S as (w & E & Lw & U). specialize (T a r). destruct (k a r) as [b r'| | |].
    + destruct T as (w2 & E2 & Mw & V). exists (w ++ w2). split; [subst; apply app_assoc|split].
      * intros v'. split.
        -- intros (u1 & u2 & a' & E' & Lu & Mu). assert (E3 : i = u1 ++ u2 ++ r').
           { rewrite E, E2. rewrite app_assoc, E', <- app_assoc. reflexivity. }
           destruct (U _ _ _ E3 Lu) as (-> & ->). apply app_inv_head in E'. subst u2. apply Mw, Mu.
        -- intros ->. exists w, w2, a. split; [reflexivity|split; [exact Lw|apply Mw; reflexivity]].
      * intros w' r'' v' E' (u1 & u2 & a' & -> & Lu & Mu). rewrite <- app_assoc in E'.
        destruct (U _ _ _ E' Lu) as (-> & ->). rewrite E in E'. apply app_inv_head in E'.
        pose proof (V _ _ _ E' Mu). rewrite !app_length. lia.
    + intros w' r'' v' E' (u1 & u2 & a' & -> & Lu & Mu). rewrite <- app_assoc in E'.
      destruct (U _ _ _ E' Lu) as (-> & ->). rewrite E in E'. apply app_inv_head in E'. exact (T _ _ _ E' Mu).
    + intros w' r'' v' E' (u1 & u2 & a' & -> & Lu & Mu). rewrite <- app_assoc in E'.
      destruct (U _ _ _ E' Lu) as (-> & ->). rewrite E in E'. apply app_inv_head in E'. exact (T _ _ _ E' Mu).
    + subst i. apply On, T.
  - intros w' r' v' E (u1 & u2 & a & -> & Lu & _). rewrite <- app_assoc in E. exact (S _ _ _ E Lu).
  - destruct S.
  - exact S.
Qed.
Lemma reads_pmap : forall A B bad (f : A -> B) p L, reads bad p L -> reads bad (pmap f p) (fun w v => exists a, v = f a /\ L w a).
Proof.
  intros A B bad f p L S i. specialize (S i). unfold pmap.
  destruct (p i) as [a r| | |]; [|intros w r v E (a & _ & H); exact (S w r a E H)|intros w r v E (a & _ & H); exact (S w r a E H)|exact S].
  destruct S as (w & E & Lw & U). exists w. split; [exact E|split].
  - intros v'. split; [intros (b & -> & H); apply Lw in H; congruence|intros ->; exists a; split; [reflexivity|apply Lw; reflexivity]].
  - intros w' r' v' E' (a' & -> & H). exact (U _ _ _ E' H).
Qed.
(** Of two languages the first goes first if its words are longer; a failure of the
    first must then be a failure of the second. *)
Lemma reads_alt : forall A bad (p q : parser A) L M, reads bad p L -> reads bad q M ->
  (forall w1 r1 w2 r2 v1 v2, w1 ++ r1 = w2 ++ r2 -> L w1 v1 -> M w2 v2 -> (length w2 < length w1)%nat) ->
  (forall i, p i = Fail -> forall w r v, i = w ++ r -> ~ M w v) ->
  reads bad (alt p q) (either L M).
Proof.
  intros A bad p q L M S T D F i. specialize (S i). specialize (T i). specialize (F i). unfold alt. destruct (p i) as [a r| | |]; [|..].
  - destruct S as (w & E & Lw & U). exists w. split; [exact E|split].
    + intros v'. split; [intros [H|H]; [apply Lw, H|]|intros ->; left; apply Lw; reflexivity].
      exfalso. pose proof (D w r w r a v' eq_refl (proj2 (Lw a) eq_refl) H). lia.
    + intros w' r' v' E' [H|H]; [exact (U _ _ _ E' H)|].
      pose proof (D w r w' r' a v' ltac:(congruence) (proj2 (Lw a) eq_refl) H). lia.
  - destruct (q i) as [a r| | |].
    + destruct T as (w & E & Mw & U). exists w. split; [exact E|split].
      * intros v'. split; [intros [H|H]; [exfalso; exact (S _ _ _ E H)|apply Mw, H]|intros ->; right; apply Mw; reflexivity].
      * intros w' r' v' E' [H|H]; [exfalso; exact (S _ _ _ E' H)|exact (U _ _ _ E' H)].
    + intros w r v E [H|H]; [exact (S _ _ _ E H)|exact (T _ _ _ E H)].
    + intros w r v E [H|H]; [exact (S _ _ _ E H)|exact (T _ _ _ E H)].
    + exact T.
  - intros w r v E [H|H]; [exact (S _ _ _ E H)|exact (F eq_refl _ _ _ E H)].
  - exact S.
Qed.
Lemma reads_star : forall A bad (p : parser A) L, onward bad -> scan bad p L -> proper L -> reads bad (many0 p) (star L).
Proof.
  intros A bad p L On S Pr i. pose proof (many0_spec _ _ _ _ i On S Pr) as Mi.
  destruct (many0 p i) as [vs r| | |]; [|destruct Mi|destruct Mi|exact Mi].
  destruct Mi as (w & E & St & No & Pre). exists w. split; [exact E|split].
  - intros v'. split; [|intros ->; exact St]. intros H. destruct (Pre _ _ _ E H) as (m & ms & E2 & -> & Sm).
    assert (m = []) as -> by (apply (f_equal (@length _)) in E2; rewrite app_length in E2; destruct m; [reflexivity|cbn in E2; lia]).
    inversion Sm as [|u x us xs Lu Su E3]; subst; [symmetry; apply app_nil_r|].
    destruct (app_eq_nil _ _ E3) as (-> & _). destruct (Pr _ _ Lu eq_refl).
  - intros w' r' v' E' H. destruct (Pre _ _ _ E' H) as (m & ms & -> & _ & _). rewrite app_length. lia.
Qed.

(** What reading means for the longest word. *)
Lemma reads_longest : forall A bad (p : parser A) L i w r v, reads bad p L -> longest L i w r -> L w v ->
  p i = Ok v r \/ bad i.
Proof.
  intros A bad p L i w r v R (E & Lo) Lw. specialize (R i). destruct (p i) as [v2 r2| | |].
  - left. destruct R as (w2 & E2 & V & U). pose proof (U _ _ _ E Lw) as H.
    pose proof (Lo _ _ v2 E2 (proj2 (V v2) eq_refl)) as H2.
    destruct (app_cancel w2 w r2 r ltac:(congruence) ltac:(lia)) as (-> & ->). apply V in Lw. subst. reflexivity.
  - destruct (R _ _ _ E Lw).
  - destruct (R _ _ _ E Lw).
  - right. exact R.
Qed.
Lemma reads_ok : forall A bad (p : parser A) L i v r, reads bad p L -> p i = Ok v r -> exists w, longest L i w r /\ L w v.
Proof.
  intros A bad p L i v r R E. specialize (R i). rewrite E in R. destruct R as (w & E2 & V & U).
  exists w. split; [split; assumption|apply V; reflexivity].
Qed.
