From Coq Require Import List Arith Bool Lia.
Import ListNotations.
From Verif Require Import ShapeMapModel ShapeMapSpec.

Lemma hget_hset {A} k k' (a : A) m : hget k (hset k' a m) = if Nat.eqb k k' then Some a else hget k m.
Proof.
  induction m as [|[k0 a0] m IH]; cbn [hset hget]; [reflexivity|].
  destruct (Nat.eqb_spec k' k0) as [->|N]; cbn [hget].
  - destruct (Nat.eqb k k0); reflexivity.
  - destruct (Nat.eqb_spec k k0) as [->|N'].
    + destruct (Nat.eqb_spec k0 k'); [congruence|reflexivity].
    + exact IH.
Qed.

(** the status of a pair after it is given [st] *)
Definition step (o : option status) (st : status) : option status :=
  match o with None => Some st | Some c => combine_status c st end.
Definition pair_eqb (n l n' l' : nat) : bool := Nat.eqb n' n && Nat.eqb l' l.

Lemma add_result_step m n l st :
  match add_result m n l st with
  | Some m' => step (get_info m n l) st <> None /\
      forall n' l', get_info m' n' l' = if pair_eqb n' l' n l then step (get_info m n l) st else get_info m n' l'
  | None => step (get_info m n l) st = None
  end.
Proof.
  unfold add_result, get_info, pair_eqb. destruct (hget n m) as [mp|] eqn:E.
  - destruct (hget l mp) as [c|] eqn:F.
    + cbn [step]. destruct (combine_status c st) as [c'|] eqn:G; [|reflexivity]. split; [discriminate|].
      intros n' l'. rewrite hget_hset. rewrite (Nat.eqb_sym n n'), (Nat.eqb_sym l l').
      destruct (Nat.eqb_spec n' n) as [->|]; cbn [andb]; [|reflexivity].
      rewrite E, hget_hset. destruct (Nat.eqb l' l); reflexivity.
    + cbn [step]. split; [discriminate|]. intros n' l'. rewrite hget_hset, (Nat.eqb_sym n n'), (Nat.eqb_sym l l').
      destruct (Nat.eqb_spec n' n) as [->|]; cbn [andb]; [|reflexivity].
      rewrite E, hget_hset. destruct (Nat.eqb l' l); reflexivity.
  - cbn [step]. split; [discriminate|]. intros n' l'. rewrite hget_hset, (Nat.eqb_sym n n'), (Nat.eqb_sym l l').
    destruct (Nat.eqb_spec n' n) as [->|]; cbn [andb]; [|reflexivity].
    rewrite E. cbn [hget]. destruct (Nat.eqb l' l); reflexivity.
Qed.

Fixpoint settle (o : option status) (ss : list status) : option (option status) :=
  match ss with
  | [] => Some o
  | s :: r => match step o s with None => None | Some c => settle (Some c) r end
  end.

Lemma add_results_settle calls : forall m,
  match add_results m calls with
  | Some m' => forall n l, settle (get_info m n l) (given n l calls) = Some (get_info m' n l)
  | None => exists n l, settle (get_info m n l) (given n l calls) = None
  end.
Proof.
  induction calls as [|[[n l] st] r IH]; intro m; cbn [add_results]; [reflexivity|].
  pose proof (add_result_step m n l st) as A. destruct (add_result m n l st) as [m'|].
  - destruct A as [A B]. specialize (IH m').
    assert (C : forall n' l', settle (get_info m n' l') (given n' l' ((n, l, st) :: r)) = settle (get_info m' n' l') (given n' l' r)).
    { intros n' l'. rewrite B. unfold given, pair_eqb. cbn [filter fst snd].
      destruct (Nat.eqb_spec n n') as [->|]; cbn [andb]; [|reflexivity].
      destruct (Nat.eqb_spec l l') as [->|]; [|reflexivity]. cbn [map snd settle].
      destruct (step (get_info m n' l') st); [reflexivity|congruence]. }
    destruct (add_results m' r) as [m''|].
    + intros n' l'. rewrite C. apply IH.
    + destruct IH as (n' & l' & H). exists n', l'. rewrite C. exact H.
  - exists n, l. unfold given. cbn [filter fst snd]. rewrite !Nat.eqb_refl. cbn [andb map snd settle]. rewrite A. reflexivity.
Qed.

Lemma settle_negative e ss : forall o, settle (Some (NonConformant e)) ss = Some o <-> Forall not_positive ss /\ o = Some (NonConformant e).
Proof.
  induction ss as [|s r IH]; intro o; cbn [settle step].
  - split; [intro H; injection H as <-; auto|intros [_ ->]; reflexivity].
  - destruct s; cbn [combine_status].
    + split; [discriminate|]. intros [H _]. inversion H; subst. contradiction.
    + rewrite IH. split; intros [A B]; split; auto; [constructor; [exact I|exact A]|inversion A; assumption].
    + rewrite IH. split; intros [A B]; split; auto; [constructor; [exact I|exact A]|inversion A; assumption].
    + split; [discriminate|]. intros [H _]. inversion H; subst. contradiction.
Qed.

Lemma settle_inconsistent i e ss o : settle (Some (Inconsistent i e)) ss = Some o <-> ss = [] /\ o = Some (Inconsistent i e).
Proof.
  destruct ss as [|s r]; cbn [settle step].
  - split; [intro H; injection H as <-; auto|intros [_ ->]; reflexivity].
  - destruct s; cbn; (split; [discriminate|intros [H _]; discriminate]).
Qed.

Definition joined (i : conformant_info) (js : list conformant_info) : conformant_info :=
  match js with
  | [] => i
  | _ => mkInfo (lines (map reason (i :: js))) (JArray (flat_map (fun j => values (app_info j)) (i :: js)))
  end.

Lemma lines_cons t t' r : lines (t :: t' :: r) = t ++ newline :: lines (t' :: r).
Proof. reflexivity. Qed.
Lemma lines_merge t t' r : lines ((t ++ newline :: t') :: r) = lines (t :: t' :: r).
Proof. destruct r; cbn [lines]; [reflexivity|]. rewrite <- app_assoc. reflexivity. Qed.

Lemma settle_positive ss : forall i o, settle (Some (Conformant i)) ss = Some o <->
  Forall not_negative ss /\ (infos ss <> [] -> exists vs, app_info i = JArray vs) /\ o = Some (Conformant (joined i (infos ss))).
Proof.
  induction ss as [|s r IH]; intros i o; cbn [settle step].
  - cbn [infos joined]. split; [intro H; injection H as <-; repeat split; auto; congruence|intros (_ & _ & ->); reflexivity].
  - destruct s as [j|e| |j e]; cbn [combine_status infos].
    + unfold merge. destruct (app_info i) as [vs|x] eqn:A.
      2:{ split; [discriminate|]. intros (_ & H & _). destruct H as (vs & H); [discriminate|discriminate]. }
      rewrite IH. cbn [app_info]. split.
      * intros (F & _ & ->). split; [constructor; [exact I|exact F]|]. split; [intros _; exists vs; reflexivity|].
        do 2 f_equal. unfold joined. destruct (infos r) as [|j' js].
        -- cbn [map lines flat_map]. rewrite A. cbn [values]. rewrite app_nil_r. f_equal. f_equal. f_equal. destruct (app_info j); reflexivity.
        -- cbn [map reason]. rewrite lines_merge. f_equal. f_equal. cbn [flat_map app_info values]. rewrite A. cbn [values].
           rewrite <- app_assoc. do 2 f_equal. destruct (app_info j); reflexivity.
      * intros (F & _ & ->). inversion F; subst. split; [assumption|]. split; [intros _; eexists; reflexivity|].
        do 2 f_equal. unfold joined. destruct (infos r) as [|j' js].
        -- cbn [map lines flat_map]. rewrite A. cbn [values]. rewrite app_nil_r. f_equal. f_equal. f_equal. destruct (app_info j); reflexivity.
        -- cbn [map reason]. rewrite lines_merge. f_equal. f_equal. cbn [flat_map app_info values]. rewrite A. cbn [values].
           rewrite <- app_assoc. do 2 f_equal. destruct (app_info j); reflexivity.
    + split; [discriminate|]. intros [H _]. inversion H; subst. contradiction.
    + rewrite IH. split; intros (F & X); (split; [|exact X]); [constructor; [exact I|exact F]|inversion F; assumption].
    + split; [discriminate|]. intros [H _]. inversion H; subst. contradiction.
Qed.

Lemma recorded_positive i ss o : recorded (Conformant i :: ss) o <->
  Forall not_negative ss /\ (infos ss <> [] -> exists vs, app_info i = JArray vs) /\ o = Some (Conformant (joined i (infos ss))).
Proof.
  split.
  - intro R. inversion R as [|ss' N F Q1 Q2|before e after F F' E E2|ss' i' F E Q1 Q2|ss' i' js F E J A Q1 Q2|]; subst.
    + inversion F; subst. discriminate.
    + destruct before as [|b before]; [discriminate|]. injection E as -> _. inversion F; subst. discriminate.
    + inversion F; subst. cbn [infos] in E. injection E as <- E. rewrite E. split; [assumption|]. split; [congruence|reflexivity].
    + inversion F; subst. cbn [infos] in E. injection E as <- E. rewrite E. split; [assumption|]. split; [intros _; exact A|].
      destruct js; [congruence|reflexivity].
  - intros (F & A & ->). unfold joined. destruct (infos ss) as [|j js] eqn:E.
    + apply rec_conformant_once; [constructor; [exact I|exact F]|]. cbn [infos]. rewrite E. reflexivity.
    + apply rec_conformant; [constructor; [exact I|exact F]|cbn [infos]; rewrite E; reflexivity|discriminate|].
      apply A. discriminate.
Qed.

Lemma recorded_negative e ss o : recorded (NonConformant e :: ss) o <-> Forall not_positive ss /\ o = Some (NonConformant e).
Proof.
  split.
  - intro R. inversion R as [|ss' N F Q1 Q2|before e' after F F' E E2|ss' i' F E Q1 Q2|ss' i' js F E J A Q1 Q2|]; subst.
    + inversion F; subst. discriminate.
    + destruct before as [|b before]; [injection E as -> ->; auto|]. injection E as -> _. inversion F; subst. discriminate.
    + inversion F; subst. contradiction.
    + inversion F; subst. contradiction.
  - intros (F & ->). apply (rec_negative [] e ss); [constructor|exact F].
Qed.

Lemma recorded_inconsistent i e ss o : recorded (Inconsistent i e :: ss) o <-> ss = [] /\ o = Some (Inconsistent i e).
Proof.
  split.
  - intro R. inversion R as [|ss' N F Q1 Q2|before e' after F F' E E2|ss' i' F E Q1 Q2|ss' i' js F E J A Q1 Q2|]; subst; auto.
    + inversion F; subst. discriminate.
    + destruct before as [|b before]; [discriminate|]. injection E as -> _. inversion F; subst. discriminate.
    + inversion F; subst. contradiction.
    + inversion F; subst. contradiction.
  - intros (-> & ->). constructor.
Qed.

Lemma recorded_pending ss o : match ss with [] | Inconsistent _ _ :: _ => False | _ => True end -> (recorded (Pending :: ss) o <-> recorded ss o).
Proof.
  intro N. split.
  - intro R. inversion R as [|ss' N' F Q1 Q2|before e' after F F' E E2|ss' i' F E Q1 Q2|ss' i' js F E J A Q1 Q2|]; subst.
    + inversion F; subst. apply rec_pending; [destruct ss; [destruct N|discriminate]|assumption].
    + destruct before as [|b before]; [discriminate|]. injection E as -> <-. inversion F; subst. apply rec_negative; assumption.
    + inversion F; subst. apply rec_conformant_once; assumption.
    + inversion F; subst. apply rec_conformant; assumption.
  - intro R. inversion R as [|ss' N' F Q1 Q2|before e' after F F' E E2|ss' i' F E Q1 Q2|ss' i' js F E J A Q1 Q2|i e Q1 Q2]; subst.
    + destruct N.
    + apply rec_pending; [discriminate|constructor; [reflexivity|exact F]].
    + apply (rec_negative (Pending :: before)); [constructor; [reflexivity|exact F]|exact F'].
    + apply rec_conformant_once; [constructor; [exact I|exact F]|exact E].
    + apply rec_conformant; [constructor; [exact I|exact F]|exact E|assumption|assumption].
    + destruct N.
Qed.

Lemma settle_pending ss : forall o, settle (Some Pending) ss = Some o <-> recorded (Pending :: ss) o.
Proof.
  induction ss as [|s r IH]; intro o.
  - cbn [settle]. split.
    + intro H. injection H as <-. apply rec_pending; [discriminate|repeat constructor].
    + intro R. inversion R as [|ss' N' F Q1 Q2|before e' after F F' E E2|ss' i' F E Q1 Q2|ss' i' js F E J A Q1 Q2|]; subst.
      * reflexivity.
      * destruct before as [|b [|b' before]]; discriminate.
      * discriminate.
      * discriminate.
  - cbn [settle step]. destruct s as [i|e| |i e]; cbn [combine_status].
    + rewrite recorded_pending by exact I. rewrite settle_positive, recorded_positive. reflexivity.
    + rewrite recorded_pending by exact I. rewrite settle_negative, recorded_negative. reflexivity.
    + rewrite IH. rewrite (recorded_pending (Pending :: r)) by exact I. reflexivity.
    + split; [discriminate|]. intro R. inversion R as [|ss' N' F Q1 Q2|before e' after F F' E E2|ss' i' F E Q1 Q2|ss' i' js F E J A Q1 Q2|]; subst.
      * inversion F as [|? ? ? G]; subst. inversion G; subst. discriminate.
      * destruct before as [|b [|b' before]]; [discriminate|discriminate|]. injection E as -> -> _.
        inversion F as [|? ? ? G]; subst. inversion G; subst. discriminate.
      * inversion F as [|? ? ? G]; subst. inversion G; subst. contradiction.
      * inversion F as [|? ? ? G]; subst. inversion G; subst. contradiction.
Qed.

Lemma settle_recorded ss o : settle None ss = Some o <-> recorded ss o.
Proof.
  destruct ss as [|[i|e| |i e] r].
  - cbn [settle]. split; [intro H; injection H as <-; constructor|].
    intro R. inversion R as [|ss' N' F Q1 Q2|before e' after F F' E E2|ss' i' F E Q1 Q2|ss' i' js F E J A Q1 Q2|]; subst;
      [reflexivity|congruence|destruct before; discriminate|discriminate|discriminate].
  - cbn [settle step]. rewrite settle_positive, recorded_positive. reflexivity.
  - cbn [settle step]. rewrite settle_negative, recorded_negative. reflexivity.
  - cbn [settle step]. apply settle_pending.
  - cbn [settle step]. rewrite settle_inconsistent, recorded_inconsistent. reflexivity.
Qed.

Lemma get_info_nil n l : get_info [] n l = None.
Proof. reflexivity. Qed.

Lemma results_recorded calls m : add_results [] calls = Some m ->
  forall n l o, get_info m n l = o <-> recorded (given n l calls) o.
Proof.
  intros A n l o. pose proof (add_results_settle calls []) as S. rewrite A in S. specialize (S n l). rewrite get_info_nil in S.
  rewrite <- settle_recorded, S. split; [intros ->; reflexivity|intro H; injection H as <-; reflexivity].
Qed.

Lemma results_panic calls : add_results [] calls = None <-> exists n l, forall o, ~ recorded (given n l calls) o.
Proof.
  pose proof (add_results_settle calls []) as S. split.
  - intro A. rewrite A in S. destruct S as (n & l & S). exists n, l. intros o R. apply settle_recorded in R. rewrite get_info_nil in S. congruence.
  - intros (n & l & N). destruct (add_results [] calls) as [m|]; [|reflexivity]. specialize (S n l). rewrite get_info_nil in S.
    apply settle_recorded in S. destruct (N _ S).
Qed.

(** ** Labels *)
Lemma labels_below r : built_labels r -> (forall k, l_next r <= k -> hget k (l_shapes r) = None) /\
  (forall l i, find_ref r l = Some i -> i < l_next r).
Proof.
  induction 1 as [|label r B [IH1 IH2]|r B [IH1 IH2]]; unfold find_ref in *; cbn [add_shape new_index l_next l_shapes l_idx no_labels].
  - split; [reflexivity|discriminate].
  - split.
    + intros k L. rewrite hget_hset. destruct (Nat.eqb_spec k (l_next r)); [lia|apply IH1; lia].
    + intros l i. rewrite hget_hset. destruct (Nat.eqb l label); [intro H; injection H as <-; lia|]. intro H. apply IH2 in H. lia.
  - split.
    + intros k L. rewrite hget_hset. destruct (Nat.eqb_spec k (l_next r)); [lia|apply IH1; lia].
    + intros l i H. apply IH2 in H. lia.
Qed.

Lemma find_ref_label r l i : built_labels r -> find_ref r l = Some i -> get_shape_label r i = Some l.
Proof.
  intro B. revert l i. induction B as [|label r B IH|r B IH]; intros l i; unfold find_ref, get_shape_label in *;
    cbn [add_shape new_index l_next l_shapes l_idx no_labels]; [discriminate| |].
  - rewrite !hget_hset. destruct (Nat.eqb_spec l label) as [->|N].
    + intro H. injection H as <-. rewrite Nat.eqb_refl. reflexivity.
    + intro H. destruct (Nat.eqb_spec i (l_next r)) as [->|]; [|exact (IH _ _ H)].
      apply (labels_below r B) in H. lia.
  - rewrite hget_hset. intro H. destruct (Nat.eqb_spec i (l_next r)) as [->|]; [|exact (IH _ _ H)].
    apply (labels_below r B) in H. lia.
Qed.

(** ** Validation of a shape map *)
From Verif Require Import EngineModel EngineShape.

Lemma set_insert_In k l x : In x (set_insert k l) <-> x = k \/ In x l.
Proof.
  unfold set_insert. destruct (existsb (Nat.eqb k) l) eqn:E.
  - apply existsb_exists in E. destruct E as (y & I & E). apply Nat.eqb_eq in E. subst y. split; [auto|]. intros [->|H]; auto.
  - rewrite in_app_iff. cbn [In]. split; [intros [H|[H|[]]]; auto|intros [->|H]; auto].
Qed.
Lemma set_insert_NoDup k l : NoDup l -> NoDup (set_insert k l).
Proof.
  intro N. unfold set_insert. destruct (existsb (Nat.eqb k) l) eqn:E; [exact N|].
  apply NoDup_rev in N. rewrite <- (rev_involutive (l ++ [k])), rev_unit. apply NoDup_rev. constructor; [|exact N].
  rewrite <- in_rev. intro I. assert (X : existsb (Nat.eqb k) l = true) by (apply existsb_exists; exists k; split; [exact I|apply Nat.eqb_refl]).
  congruence.
Qed.

Lemma fill_pending_spec r pairs : forall pending failures,
  (NoDup pending -> NoDup (fst (fill_pending r pairs pending failures))) /\
  (forall k, In k (fst (fill_pending r pairs pending failures)) <->
     In k pending \/ exists n l i, In (n, l) pairs /\ find_ref r l = Some i /\ k = key n i) /\
  (forall n l, In (n, l) (snd (fill_pending r pairs pending failures)) <->
     In (n, l) failures \/ In (n, l) pairs /\ find_ref r l = None).
Proof.
  induction pairs as [|[n l] rest IH]; intros pending failures; cbn [fill_pending].
  - cbn [fst snd In]. split; [auto|]. split; [intro k; split; [auto|intros [H|(n & l & i & [] & _)]; exact H]|].
    intros n l. split; [auto|intros [H|[[] _]]; exact H].
  - destruct (find_ref r l) as [i|] eqn:F.
    + destruct (IH (set_insert (key n i) pending) failures) as (A & B & C). split; [|split].
      * intro N. apply A. apply set_insert_NoDup. exact N.
      * intro k. rewrite B, set_insert_In. split.
        -- intros [[->|H]|(n' & l' & i' & I & E & ->)]; [right|left; exact H|right].
           ++ exists n, l, i. cbn [In]. auto.
           ++ exists n', l', i'. cbn [In]. auto.
        -- intros [H|(n' & l' & i' & [E|I] & E' & ->)]; [auto| |right; exists n', l', i'; auto].
           injection E as <- <-. left. left. congruence.
      * intros n' l'. rewrite C. cbn [In]. split; [tauto|]. intros [H|[[E|I] E']]; [tauto| |tauto]. injection E as <- <-. congruence.
    + destruct (IH pending (failures ++ [(n, l)])) as (A & B & C). split; [exact A|split].
      * intro k. rewrite B. split; intros [H|(n' & l' & i' & I & E' & ->)]; [auto| |auto|]; right; exists n', l', i'; cbn [In]; [auto|].
        destruct I as [E|I]; [injection E as <- <-; congruence|auto].
      * intros n' l'. rewrite C, in_app_iff. cbn [In]. split.
        -- intros [[H|[E|[]]]|H]; [tauto| |tauto]. injection E as <- <-. tauto.
        -- intros [H|[[E|I] E']]; [tauto| |tauto]. injection E as <- <-. tauto.
Qed.

Lemma given_app n l a b : given n l (a ++ b) = given n l a ++ given n l b.
Proof. unfold given. rewrite filter_app, map_app. reflexivity. Qed.
Lemma given_none n l calls : (forall st, ~ In (n, l, st) calls) -> given n l calls = [].
Proof.
  intro H. unfold given. induction calls as [|[[n' l'] st] r IH]; cbn [filter fst snd]; [reflexivity|].
  destruct (Nat.eqb_spec n' n) as [->|]; [destruct (Nat.eqb_spec l' l) as [->|]|]; cbn [andb].
  - destruct (H st). left. reflexivity.
  - apply IH. intros st' I. apply (H st'). right. exact I.
  - apply IH. intros st' I. apply (H st'). right. exact I.
Qed.
Lemma given_same n l calls st : In (n, l, st) calls -> (forall st', In (n, l, st') calls -> st' = st) ->
  exists k, given n l calls = repeat st (S k).
Proof.
  intros I H. unfold given. assert (A : forall c, (forall st', In (n, l, st') c -> st' = st) -> exists k, 
    map snd (filter (fun c => Nat.eqb (fst (fst c)) n && Nat.eqb (snd (fst c)) l) c) = repeat st k /\ (In (n, l, st) c -> k <> 0)).
  { clear. induction c as [|[[n' l'] st'] r IH]; intro H; cbn [filter fst snd]; [exists 0; split; [reflexivity|intros []]|].
    destruct IH as (k & E & N); [intros st'' I; apply H; right; exact I|].
    destruct (Nat.eqb_spec n' n) as [->|]; [destruct (Nat.eqb_spec l' l) as [->|]|]; cbn [andb map snd].
    - rewrite (H st' (or_introl eq_refl)), E. exists (S k). split; [reflexivity|discriminate].
    - exists k. split; [exact E|]. intros [Q|Q]; [congruence|auto].
    - exists k. split; [exact E|]. intros [Q|Q]; [congruence|auto]. }
  destruct (A calls H) as ([|k] & E & N); [destruct (N I); reflexivity|exists k; exact E].
Qed.

Lemma given_once n l calls st : NoDup (map fst calls) -> In (n, l, st) calls -> given n l calls = [st].
Proof.
  induction calls as [|[[n' l'] st'] r IH]; intros N I; [destruct I|]. cbn [map fst] in N. inversion N as [|? ? N1 N2]; subst.
  change (given n l ((n', l', st') :: r)) with
    (map snd (if Nat.eqb n' n && Nat.eqb l' l then (n', l', st') :: filter (fun c => Nat.eqb (fst (fst c)) n && Nat.eqb (snd (fst c)) l) r
              else filter (fun c => Nat.eqb (fst (fst c)) n && Nat.eqb (snd (fst c)) l) r)).
  destruct I as [E|I].
  - injection E as -> -> ->. rewrite !Nat.eqb_refl. cbn [andb map snd]. f_equal. apply given_none.
    intros st' I. apply N1. apply in_map_iff. exists (n, l, st'). auto.
  - destruct (Nat.eqb_spec n' n) as [->|]; [destruct (Nat.eqb_spec l' l) as [->|]|]; cbn [andb].
    + destruct N1. apply in_map_iff. exists (n, l, st). auto.
    + exact (IH N2 I).
    + exact (IH N2 I).
Qed.

Lemma add_results_app a : forall m b, add_results m (a ++ b) = match add_results m a with Some m' => add_results m' b | None => None end.
Proof.
  induction a as [|[[n l] st] a IH]; intros m b; [reflexivity|]. cbn [app add_results].
  destruct (add_result m n l st); [apply IH|reflexivity].
Qed.

Section Validate.
  Variable r : labels.
  Variable reasons : nat -> conformant_info.
  Variable errors : nat -> nat.
  Variable not_found : nat -> nat -> nat.
  Variable run : list nat -> option (list (nat * bool)).
  Hypothesis H_r : built_labels r.
  Hypothesis H_run : forall ks checked, run ks = Some checked -> map fst checked = ks.

  Lemma checked_calls_spec checked : (forall k b, In (k, b) checked -> exists l, find_ref r l = Some (label_of k)) ->
    exists calls, checked_calls r reasons errors checked = Some calls /\
      (forall n l st, In (n, l, st) calls <->
        exists k b, In (k, b) checked /\ n = node_of k /\ find_ref r l = Some (label_of k) /\
          st = (if b then Conformant (reasons k) else NonConformant (errors k))) /\
      (NoDup (map fst checked) -> NoDup (map fst calls)).
  Proof.
    induction checked as [|[k b] rest IH]; intro F; cbn [checked_calls].
    - exists []. split; [reflexivity|]. split; [|constructor]. intros n l st. split; [intros []|intros (k & b & [] & _)].
    - destruct IH as (calls & E & S & ND); [intros k' b' I; apply (F k' b'); right; exact I|].
      destruct (F k b (or_introl eq_refl)) as (l0 & F0). rewrite (find_ref_label r l0 _ H_r F0), E.
      eexists. split; [reflexivity|]. split.
      2:{ cbn [map fst]. intro N. inversion N as [|? ? N1 N2]; subst. constructor; [|exact (ND N2)].
          rewrite in_map_iff. intros ([[n l] st] & Q & I). cbn [fst] in Q. injection Q as -> ->. apply S in I.
          destruct I as (k' & b' & I & Q & F' & _). apply N1. apply in_map_iff. exists (k', b'). split; [|exact I]. cbn [fst].
          rewrite <- (key_eta k), <- (key_eta k'), Q. f_equal. congruence. }
      intros n l st. cbn [In]. rewrite S. split.
      + intros [Q|(k' & b' & I & X)].
        * injection Q as <- <- <-. exists k, b. auto.
        * exists k', b'. auto.
      + intros (k' & b' & [Q|I] & -> & F' & ->).
        * injection Q as <- <-. left. apply (find_ref_label r l _ H_r) in F'. rewrite (find_ref_label r l0 _ H_r F0) in F'.
          injection F' as <-. reflexivity.
        * right. exists k', b'. auto.
  Qed.

  Lemma shapemap_spec pairs :
    match validate_shapemap r reasons errors not_found run pairs with
    | Panic => False
    | Error => run (rev (fst (fill_pending r pairs [] []))) = None
    | Done m => exists checked, run (rev (fst (fill_pending r pairs [] []))) = Some checked /\
        forall n l,
          (~ In (n, l) pairs -> get_info m n l = None) /\
          (In (n, l) pairs -> find_ref r l = None -> get_info m n l = Some (NonConformant (not_found n l))) /\
          (forall i, In (n, l) pairs -> find_ref r l = Some i -> exists b, In (key n i, b) checked /\
             get_info m n l = Some (if b then Conformant (reasons (key n i)) else NonConformant (errors (key n i))))
    end.
  Proof.
    unfold validate_shapemap. destruct (fill_pending_spec r pairs [] []) as (A & B & C).
    destruct (fill_pending r pairs [] []) as [pending failures]. cbn [fst snd] in *. specialize (A (NoDup_nil _)).
    destruct (run (rev pending)) as [checked|] eqn:R; [|reflexivity]. pose proof (H_run _ _ R) as M.
    assert (K : forall k, In k pending <-> exists b, In (k, b) checked).
    { intro k. rewrite in_rev, <- M, in_map_iff. split.
      - intros ([k' b] & <- & I). exists b. exact I.
      - intros (b & I). exists (k, b). auto. }
    assert (U : forall k b b', In (k, b) checked -> In (k, b') checked -> b = b').
    { assert (N : NoDup (map fst checked)) by (rewrite M; apply NoDup_rev; exact A). clear - N. induction checked as [|[k0 b0] c IH]; intros k b b' I I'; [destruct I|].
      cbn [map fst] in N. inversion N as [|? ? N1 N2]; subst. destruct I as [E|I], I' as [E'|I'].
      - congruence.
      - injection E as -> ->. destruct N1. apply in_map_iff. exists (k, b'). auto.
      - injection E' as -> ->. destruct N1. apply in_map_iff. exists (k, b). auto.
      - exact (IH N2 k b b' I I'). }
    destruct (checked_calls_spec checked) as (calls & E & S & ND).
    { intros k b I. assert (P : In k pending) by (apply K; exists b; exact I). apply B in P.
      destruct P as [[]|(n & l & i & _ & F & ->)]. exists l. rewrite key_label. exact F. }
    rewrite E.
    set (fcalls := map (fun nl : nat * nat => (fst nl, snd nl, NonConformant (not_found (fst nl) (snd nl)))) failures).
    assert (FC : forall n l st, In (n, l, st) fcalls <-> In (n, l) pairs /\ find_ref r l = None /\ st = NonConformant (not_found n l)).
    { intros n l st. unfold fcalls. rewrite in_map_iff. split.
      - intros ([n' l'] & Q & I). cbn [fst snd] in Q. injection Q as <- <- <-. apply C in I. destruct I as [[]|[I F]]. auto.
      - intros (I & F & ->). exists (n, l). split; [reflexivity|]. apply C. auto. }
    assert (G0 : forall n l, ~ In (n, l) pairs -> given n l (calls ++ fcalls) = []).
    { intros n l N. apply given_none. intros st I. apply in_app_iff in I. destruct I as [I|I].
      - apply S in I. destruct I as (k & b & I & -> & F & _). assert (P : In k pending) by (apply K; exists b; exact I).
        apply B in P. destruct P as [[]|(n & l' & i & I' & F' & ->)]. rewrite key_node, key_label in *.
        apply (find_ref_label r _ _ H_r) in F. apply (find_ref_label r _ _ H_r) in F'. congruence.
      - apply FC in I. tauto. }
    assert (G1 : forall n l, In (n, l) pairs -> find_ref r l = None -> exists k, given n l (calls ++ fcalls) = repeat (NonConformant (not_found n l)) (Datatypes.S k)).
    { intros n l I F. apply given_same.
      - apply in_app_iff. right. apply FC. auto.
      - intros st' I'. apply in_app_iff in I'. destruct I' as [I'|I'].
        + apply S in I'. destruct I' as (k & b & _ & _ & F' & _). congruence.
        + apply FC in I'. tauto. }
    assert (G2 : forall n l i, In (n, l) pairs -> find_ref r l = Some i -> exists b, In (key n i, b) checked /\
       given n l (calls ++ fcalls) = [if b then Conformant (reasons (key n i)) else NonConformant (errors (key n i))]).
    { intros n l i I F. assert (P : In (key n i) pending) by (apply B; right; exists n, l, i; auto). apply K in P. destruct P as (b & P).
      exists b. split; [exact P|]. rewrite given_app, (given_none n l fcalls), app_nil_r.
      - apply given_once; [apply ND; rewrite M; apply NoDup_rev; exact A|]. apply S. exists (key n i), b. rewrite key_node, key_label. auto.
      - intros st I'. apply FC in I'. destruct I' as (_ & F' & _). congruence. }
    assert (D : forall n l, {In (n, l) pairs} + {~ In (n, l) pairs}) by (intros n l; apply in_dec; decide equality; apply Nat.eq_dec).
    assert (RN : forall e k, recorded (repeat (NonConformant e) (Datatypes.S k)) (Some (NonConformant e))).
    { intros e k. cbn [repeat]. apply recorded_negative. split; [|reflexivity]. apply Forall_forall. intros x X. apply repeat_spec in X. subst x. exact I. }
    assert (RO : forall (b : bool) i e, recorded [if b then Conformant i else NonConformant e] (Some (if b then Conformant i else NonConformant e))).
    { intros [|] i e; [apply rec_conformant_once; [repeat constructor|reflexivity]|apply (rec_negative [] e []); constructor]. }
    pose proof (add_results_app calls [] fcalls) as AP. destruct (add_results [] (calls ++ fcalls)) as [m'|] eqn:AR.
    - destruct (add_results [] calls) as [m|]; [|discriminate]. rewrite <- AP. exists checked. split; [reflexivity|].
      pose proof (results_recorded _ _ AR) as RR. intros n l. split; [|split].
      + intro N. apply RR. rewrite (G0 n l N). constructor.
      + intros I F. apply RR. destruct (G1 n l I F) as (k & ->). apply RN.
      + intros i I F. destruct (G2 n l i I F) as (b & P & G). exists b. split; [exact P|]. apply RR. rewrite G. apply RO.
    - exfalso. apply results_panic in AR. destruct AR as (n & l & N). destruct (D n l) as [I|I].
      + destruct (find_ref r l) as [i|] eqn:F.
        * destruct (G2 n l i I F) as (b & P & G). rewrite G in N. exact (N _ (RO _ _ _)).
        * destruct (G1 n l I F) as (k & G). rewrite G in N. exact (N _ (RN _ _)).
      + rewrite (G0 n l I) in N. exact (N _ rec_none).
  Qed.
End Validate.
