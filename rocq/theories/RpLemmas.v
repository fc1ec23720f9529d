(* Lemmas about the shell. *)
From Coq Require Import List String Ascii Bool Arith Lia ZArith.
From Verif Require Import RpModel RpSpec.
Import ListNotations.
Open Scope string_scope.

Lemma app_assoc_s a b c : (a ++ b) ++ c = a ++ (b ++ c).
Proof. induction a as [|x a IH]; cbn; [reflexivity | now rewrite IH]. Qed.

Lemma split_cons s : exists h t, split s = h :: t.
Proof.
  destruct s as [|c r]; cbn; [now eexists; eexists |].
  destruct (Ascii.eqb c "."); [now eexists; eexists |].
  destruct (split r) as [|h t]; now eexists; eexists.
Qed.

Lemma concat_cons k ks : ks <> [] -> String.concat "." (k :: ks) = k ++ "." ++ String.concat "." ks.
Proof. destruct ks; [congruence | reflexivity]. Qed.

Lemma split_concat s : String.concat "." (split s) = s.
Proof.
  induction s as [|c r IH]; [reflexivity |]. cbn [split].
  destruct (Ascii.eqb c ".") eqn:E.
  - apply Ascii.eqb_eq in E as ->. rewrite concat_cons by (destruct (split_cons r) as (h & t & ->); congruence).
    now rewrite IH.
  - destruct (split_cons r) as (h & t & Hs). rewrite Hs in IH |- *.
    rewrite <- IH. destruct t; reflexivity.
Qed.

Lemma split_dotless s : Forall dotless (split s).
Proof.
  induction s as [|c r IH]; cbn [split].
  - constructor; [intros [] | constructor].
  - destruct (Ascii.eqb c ".") eqn:E.
    + constructor; [intros [] | exact IH].
    + destruct (split_cons r) as (h & t & Hs). rewrite Hs in IH |- *. inversion IH; subst.
      constructor; [| assumption]. intros [-> | K]; [discriminate | contradiction].
Qed.

Lemma split_word k : dotless k -> split k = [k].
Proof.
  induction k as [|c r IH]; intros H; [reflexivity |]. cbn [split].
  destruct (Ascii.eqb c ".") eqn:E.
  - apply Ascii.eqb_eq in E as ->. destruct H. now left.
  - rewrite IH; [reflexivity |]. intros K. apply H. now right.
Qed.

Lemma split_dot k r : dotless k -> split (k ++ "." ++ r) = k :: split r.
Proof.
  induction k as [|c k IH]; intros H; [reflexivity |]. cbn [append split].
  destruct (Ascii.eqb c ".") eqn:E.
  - apply Ascii.eqb_eq in E as ->. destruct H. now left.
  - cbn [append] in IH. rewrite IH; [reflexivity |]. intros K. apply H. now right.
Qed.

Lemma concat_split ks : ks <> [] -> Forall dotless ks -> split (String.concat "." ks) = ks.
Proof.
  induction ks as [|k ks IH]; intros Hn H; [congruence |]. inversion H; subst.
  destruct ks as [|k' ks].
  - now apply split_word.
  - rewrite concat_cons by congruence. rewrite split_dot by assumption.
    now rewrite IH by (assumption || congruence).
Qed.

Lemma names_path_split key ks : names_path key ks <-> ks = split key.
Proof.
  split.
  - intros (Hn & Hd & <-). symmetry. now apply concat_split.
  - intros ->. split; [destruct (split_cons key) as (h & t & ->); congruence |].
    split; [apply split_dotless | apply split_concat].
Qed.

Lemma assoc_In {A} k (x : A) t : assoc k t = Some x -> In (k, x) t.
Proof.
  induction t as [|[k' y] t IH]; cbn; [discriminate |].
  destruct (String.eqb k k') eqn:E; [| auto].
  apply String.eqb_eq in E as ->. intros [= ->]. now left.
Qed.

Lemma In_assoc {A} k (x : A) t : NoDup (map fst t) -> In (k, x) t -> assoc k t = Some x.
Proof.
  induction t as [|[k' y] t IH]; cbn; [intros _ [] |].
  intros H [K | K]; inversion H; subst.
  - injection K as -> ->. now rewrite String.eqb_refl.
  - destruct (String.eqb k k') eqn:E; [| auto].
    apply String.eqb_eq in E as ->. destruct H2. now apply in_map with (f := fst) in K.
Qed.

Lemma proper_table t : proper (VTab t) -> NoDup (map fst t) /\ Forall (fun p => proper (snd p)) t.
Proof. inversion 1; subst; [auto | exfalso; eapply H0; reflexivity]. Qed.

Lemma plain_table t : plain (VTab t) ->
  Forall (fun p => fst p <> "" /\ dotless (fst p)) t /\ Forall (fun p => plain (snd p)) t.
Proof. inversion 1; subst; [auto | exfalso; eapply H0; reflexivity]. Qed.

Lemma walk_path v ks x : proper v -> walk v ks = Some x <-> path_to v ks x.
Proof.
  revert v. induction ks as [|k ks IH]; intros v Hp; cbn [walk].
  - split; [intros [= ->]; constructor | inversion 1; reflexivity].
  - split.
    + destruct v as [| | | | | | t]; cbn [get]; try discriminate.
      destruct (assoc k t) as [y|] eqn:E; [| discriminate].
      apply proper_table in Hp as [_ Hf]. apply assoc_In in E.
      rewrite Forall_forall in Hf. specialize (Hf _ E). cbn in Hf.
      intros K. econstructor; [exact E | now apply IH].
    + inversion 1; subst. cbn [get]. apply proper_table in Hp as [Hn Hf].
      rewrite (In_assoc _ _ _ Hn H3). apply IH; [| assumption].
      rewrite Forall_forall in Hf. exact (Hf _ H3).
Qed.

Lemma assoc_put {A} k (x : A) t : assoc k (put k x t) = Some x.
Proof.
  induction t as [|[k' y] t IH]; cbn; [now rewrite String.eqb_refl |].
  destruct (String.eqb k k') eqn:E; cbn; [now rewrite String.eqb_refl | now rewrite E].
Qed.

Lemma assoc_put_other {A} k q (x : A) t : q <> k -> assoc q (put k x t) = assoc q t.
Proof.
  intros H. induction t as [|[k' y] t IH]; cbn.
  - now apply String.eqb_neq in H as ->.
  - destruct (String.eqb k k') eqn:E; cbn.
    + apply String.eqb_eq in E as <-. now apply String.eqb_neq in H as ->.
    + now rewrite IH.
Qed.

Lemma set_at_cons v k r new : r <> [] ->
  set_at v (k :: r) new =
  match v with
  | VTab t => match assoc k t with
              | Some x => match set_at x r new with
                          | Some x' => Some (VTab (put k x' t))
                          | None => None
                          end
              | None => None
              end
  | _ => None
  end.
Proof. destruct r; [congruence | reflexivity]. Qed.

Lemma set_walk v ks new v' : set_at v ks new = Some v' -> walk v' ks = Some new.
Proof.
  revert v v'. induction ks as [|k ks IH]; intros v v'; [discriminate |].
  destruct ks as [|k2 ks].
  - cbn [set_at]. destruct v; try discriminate. intros [= <-]. cbn. now rewrite assoc_put.
  - rewrite set_at_cons by congruence. destruct v as [| | | | | | t]; try discriminate.
    destruct (assoc k t) as [x|] eqn:E; [| discriminate].
    destruct (set_at x (k2 :: ks) new) as [x'|] eqn:E2; [| discriminate].
    intros [= <-]. apply IH in E2. cbn [walk get]. now rewrite assoc_put.
Qed.

Lemma set_other v ks qs new v' : set_at v ks new = Some v' ->
  (forall r, qs <> (ks ++ r)%list) -> (forall r, ks <> (qs ++ r)%list) -> walk v' qs = walk v qs.
Proof.
  revert v v' qs. induction ks as [|k ks IH]; intros v v' qs H A B; [discriminate |].
  destruct qs as [|q qs]; [destruct (B (k :: ks)); reflexivity |].
  destruct (string_dec q k) as [-> | D].
  - destruct ks as [|k2 ks]; [destruct (A qs); reflexivity |].
    rewrite set_at_cons in H by congruence. destruct v as [| | | | | | t]; try discriminate.
    destruct (assoc k t) as [x|] eqn:E; [| discriminate].
    destruct (set_at x (k2 :: ks) new) as [x'|] eqn:E2; [| discriminate].
    injection H as <-. cbn [walk get]. rewrite assoc_put, E. apply (IH x); [exact E2 | |].
    + intros r K. apply (A r). now rewrite K.
    + intros r K. apply (B r). now rewrite K.
  - assert (exists t t' y, v = VTab t /\ v' = VTab t' /\ t' = put k y t) as (t & t' & y & -> & -> & ->).
    { destruct ks as [|k2 ks].
      - cbn [set_at] in H. destruct v as [| | | | | | t]; try discriminate. injection H as <-.
        now repeat eexists.
      - rewrite set_at_cons in H by congruence. destruct v as [| | | | | | t]; try discriminate.
        destruct (assoc k t) as [x|]; [| discriminate].
        destruct (set_at x (k2 :: ks) new); [| discriminate]. injection H as <-. now repeat eexists. }
    cbn [walk get]. now rewrite assoc_put_other.
Qed.

Lemma set_some v ks k new :
  (exists v', set_at v (ks ++ [k]) new = Some v') <-> exists t, walk v ks = Some (VTab t).
Proof.
  revert v. induction ks as [|q ks IH]; intros v.
  - cbn. destruct v; split; intros [x H]; try discriminate; now eexists.
  - cbn [app walk]. rewrite set_at_cons by (destruct ks; discriminate).
    destruct v as [| | | | | | t]; cbn [get]; try (split; intros [x H]; discriminate).
    destruct (assoc q t) as [x|]; [| split; intros [y H]; discriminate].
    rewrite <- IH. split; intros [y H].
    + destruct (set_at x (ks ++ [k]) new); [now eexists | discriminate].
    + rewrite H. now eexists.
Qed.

Lemma concat_app a b : a <> [] -> b <> [] ->
  String.concat "." (a ++ b) = String.concat "." a ++ "." ++ String.concat "." b.
Proof.
  intros Ha Hb. induction a as [|k a IH]; [congruence |].
  destruct a as [|k2 a].
  - cbn [app]. now rewrite concat_cons.
  - change ((k :: k2 :: a) ++ b)%list with (k :: ((k2 :: a) ++ b))%list.
    rewrite !concat_cons by (cbn; congruence). rewrite IH by congruence.
    now rewrite !app_assoc_s.
Qed.

Lemma apart_split k q : apart k q ->
  (forall r, split q <> (split k ++ r)%list) /\ (forall r, split k <> (split q ++ r)%list).
Proof.
  intros (N & A & B). 
  assert (G : forall a b r, split b = (split a ++ r)%list -> b = a \/ exists w, b = a ++ "." ++ w).
  { intros a b r E. destruct r as [|w r].
    - left. rewrite app_nil_r in E. now rewrite <- (split_concat a), <- E, split_concat.
    - right. exists (String.concat "." (w :: r)).
      rewrite <- (split_concat b), E, concat_app, split_concat; [reflexivity | | congruence].
      destruct (split_cons a) as (h & t & ->). congruence. }
  split; intros r E; apply G in E as [E | [w E]]; [congruence | eapply A; eauto | congruence | eapply B; eauto].
Qed.

(* The dotted path of keys below another. *)
Definition under (pre : string) (ks : list string) : string :=
  if String.eqb pre "" then String.concat "." ks else pre ++ "." ++ String.concat "." ks.

Lemma under_under pre k ks : k <> "" -> ks <> [] -> under (under pre [k]) ks = under pre (k :: ks).
Proof.
  intros Hk Hks. unfold under. rewrite (concat_cons k ks) by assumption.
  destruct (String.eqb pre "") eqn:E.
  - cbn [String.concat]. apply String.eqb_neq in Hk as ->. reflexivity.
  - cbn [String.concat]. destruct pre as [|c pre]; [discriminate |].
    cbn [append String.eqb]. now rewrite !app_assoc_s.
Qed.

Lemma collect_under v : plain v -> forall pre p,
  In p (collect v pre) <-> exists ks x, ks <> [] /\ path_to v ks x /\ p = under pre ks.
Proof.
  revert v. fix IHv 1. intros v Hp pre p.
  destruct v as [s|z|s|b|s|l|t];
    try (split; [intros [] | intros (ks & x & Hn & Hk & _); inversion Hk; subst; congruence]).
  apply plain_table in Hp as [Hk Hf].
  assert (G : In p (collect (VTab t) pre) <->
    exists k y, In (k, y) t /\ (p = under pre [k] \/
      exists ks x, ks <> [] /\ path_to y ks x /\ p = under (under pre [k]) ks)).
  { induction t as [|[k y] t IHt].
    - split; [intros [] | intros (k & y & [] & _)].
    - pose proof (Forall_inv Hf) as Hy. cbn in Hy.
      specialize (IHt (Forall_inv_tail Hk) (Forall_inv_tail Hf)).
      change (collect (VTab ((k, y) :: t)) pre)
        with (under pre [k] :: (collect y (under pre [k]) ++ collect (VTab t) pre))%list.
      pose proof (IHv y Hy (under pre [k]) p) as IHy.
      cbn [In]. rewrite in_app_iff, IHt, IHy. clear IHt IHy IHv. split.
      + intros [<- | [(ks & x & ? & ? & ?) | (k' & y' & ? & ?)]].
        * exists k, y. auto.
        * exists k, y. split; [now left |]. right. exists ks, x; auto.
        * exists k', y'. auto.
      + intros (k' & y' & [[= <- <-] | K] & [-> | (ks & x & ? & ? & ?)]).
        * now left.
        * right. left. exists ks, x; auto.
        * right. right. exists k', y'. auto.
        * right. right. exists k', y'. split; [assumption |]. right. exists ks, x; auto. }
  rewrite G. clear G IHv. rewrite Forall_forall in Hk. split.
  - intros (k & y & K & [-> | (ks & x & Hn & Hw & ->)]).
    + exists [k], y. repeat split; [congruence |]. econstructor; [exact K | constructor].
    + exists (k :: ks), x. repeat split; [congruence | exact (path_down t k y ks x K Hw) |].
      apply under_under; [exact (proj1 (Hk _ K)) | assumption].
  - intros (ks & x & Hn & Hw & ->). inversion Hw; subst; [congruence |].
    exists k, x0. split; [assumption |].
    destruct ks0 as [|k2 ks]; [now left |]. right. exists (k2 :: ks), x.
    repeat split; [congruence | assumption |]. symmetry.
    apply under_under; [exact (proj1 (Hk _ H0)) | congruence].
Qed.

Lemma path_dotless v ks x : plain v -> path_to v ks x -> Forall dotless ks.
Proof.
  intros Hp H. induction H; [constructor |].
  apply plain_table in Hp as [Hk Hf]. rewrite Forall_forall in Hk, Hf.
  constructor; [exact (proj2 (Hk _ H)) | apply IHpath_to; exact (Hf _ H)].
Qed.

(* Sessions. *)

Section Sessions.
Context {L : shell}.

Lemma slot_eqb_eq a b : slot_eqb a b = true <-> a = b.
Proof. split; [destruct a, b; (reflexivity || discriminate) | intros ->; now destruct b]. Qed.

Lemma item_clear fs s f : item_of (clear fs s) f = if existsb (slot_eqb f) fs then None else item_of s f.
Proof.
  unfold item_of, clear; cbn. induction (loaded s) as [|[g x] l IH]; cbn.
  - now destruct (existsb _ _).
  - destruct (existsb (slot_eqb g) fs) eqn:E; cbn.
    + rewrite IH. destruct (existsb (slot_eqb f) fs) eqn:E2; [reflexivity |].
      destruct (slot_eqb f g) eqn:E3; [| reflexivity].
      apply slot_eqb_eq in E3 as ->. congruence.
    + destruct (slot_eqb f g) eqn:E3; [| exact IH].
      apply slot_eqb_eq in E3 as ->. now rewrite E.
Qed.

Lemma item_activate a s f : item_of (activate a s) f = item_of s f.
Proof. reflexivity. Qed.

Lemma item_store f x s g : item_of (store f x s) g = if slot_eqb g f then Some x else item_of s g.
Proof.
  unfold item_of at 1, store. cbn [loaded find fst].
  destruct (slot_eqb g f) eqn:E; [reflexivity |].
  change (item_of (clear [f] s) g = item_of s g). rewrite item_clear. cbn. now rewrite E.
Qed.

Lemma known_target t : known t = true <-> a_target t.
Proof.
  unfold known. rewrite existsb_exists. split.
  - intros (u & Hu & E). apply String.eqb_eq in E as <-. unfold a_target.
    cbn in Hu. repeat destruct Hu as [<- | Hu]; try (right; eexists; constructor); [now left | destruct Hu].
  - intros H. exists t. rewrite String.eqb_refl. split; [| reflexivity].
    destruct H as [-> | [f H]]; [| destruct H]; cbn; tauto.
Qed.

Lemma owned t f : a_target t -> forall s,
  item_of (reset_target t s) f = item_of s f \/ item_of (reset_target t s) f = None /\ owns t f.
Proof.
  intros Ht s. destruct Ht as [-> | [g Hg]]; [now left |].
  destruct Hg; cbn [reset_target String.eqb Ascii.eqb Bool.eqb]; cbn -[item_of clear];
    rewrite ?item_clear; destruct f; cbn -[item_of]; auto; right; split; constructor.
Qed.

Lemma owned_gone t f s : owns t f -> item_of (reset_target t s) f = None.
Proof.
  intros H. destruct H; cbn -[item_of clear]; rewrite ?item_clear; reflexivity.
Qed.

Lemma reset_rest t s : prefixes (reset_target t s) = prefixes s /\ settings (reset_target t s) = settings s /\
  (active (reset_target t s) = active s \/ t = "endpoint").
Proof.
  unfold reset_target.
  repeat match goal with
         | |- context [if String.eqb t ?x then _ else _] => destruct (String.eqb t x) eqn:?
         end; cbn; repeat split; auto.
  right. now apply String.eqb_eq.
Qed.

Lemma gone_stays ts s f : item_of s f = None -> Forall a_target ts ->
  item_of (fold_left (fun s t => reset_target t s) ts s) f = None.
Proof.
  revert s. induction ts as [|t ts IH]; intros s H A; [assumption |].
  inversion A; subst. cbn. apply IH; [| assumption].
  destruct (owned t f H2 s) as [-> | [-> _]]; auto.
Qed.

Lemma fold_owned ts s f : Forall a_target ts ->
  (exists t, In t ts /\ owns t f) ->
  item_of (fold_left (fun s t => reset_target t s) ts s) f = None.
Proof.
  revert s. induction ts as [|t ts IH]; intros s A (u & K & O); [destruct K |].
  inversion A; subst. cbn. destruct K as [-> | K].
  - apply gone_stays; [now apply owned_gone | assumption].
  - apply IH; [assumption | now exists u].
Qed.

Lemma fold_kept ts s f : Forall a_target ts -> (forall t, In t ts -> ~ owns t f) ->
  item_of (fold_left (fun s t => reset_target t s) ts s) f = item_of s f.
Proof.
  revert s. induction ts as [|t ts IH]; intros s A N; [reflexivity |].
  inversion A; subst. cbn. rewrite IH; [| assumption | intros u K; apply N; now right].
  destruct (owned t f H1 s) as [-> | [_ O]]; [reflexivity |]. destruct (N t); [now left | assumption].
Qed.

Lemma fold_rest ts s :
  prefixes (fold_left (fun s t => reset_target t s) ts s) = prefixes s /\
  settings (fold_left (fun s t => reset_target t s) ts s) = settings s /\
  (~ In "endpoint" ts -> active (fold_left (fun s t => reset_target t s) ts s) = active s).
Proof.
  revert s. induction ts as [|t ts IH]; intros s; [auto |]. cbn.
  destruct (IH (reset_target t s)) as (-> & -> & A). destruct (reset_rest t s) as (-> & -> & B).
  repeat split. intros N. rewrite A by tauto. destruct B as [-> | ->]; [reflexivity | tauto].
Qed.

Lemma none_stays ts s : active s = None -> active (fold_left (fun s t => reset_target t s) ts s) = None.
Proof.
  revert s. induction ts as [|t ts IH]; intros s H; [assumption |]. cbn. apply IH.
  destruct (reset_rest t s) as (_ & _ & [-> | ->]); [assumption | reflexivity].
Qed.

Lemma fold_endpoint ts s : In "endpoint" ts ->
  active (fold_left (fun s t => reset_target t s) ts s) = None.
Proof.
  revert s. induction ts as [|t ts IH]; intros s K; [destruct K |]. cbn. destruct K as [-> | K].
  - now apply none_stays.
  - now apply IH.
Qed.

Lemma filter_known ts : Forall a_target ts <-> filter (fun t => negb (known t)) ts = [].
Proof.
  split.
  - induction 1 as [|t ts H _ IH]; [reflexivity |]. cbn [filter]. apply known_target in H. rewrite H. exact IH.
  - induction ts as [|t ts IH]; cbn [filter]; [constructor |].
    destruct (known t) eqn:E; cbn [negb]; [| discriminate]. intros H.
    constructor; [now apply known_target | auto].
Qed.

End Sessions.

(* Completion. *)

Lemma substring_all s : substring 0 (String.length s) s = s.
Proof. induction s as [|c s IH]; cbn; [reflexivity | now rewrite IH]. Qed.

Lemma rfind_blankless w : blankless w -> rfind w = None.
Proof.
  induction w as [|c w IH]; intros H; [reflexivity |]. cbn.
  rewrite IH by (intros K; apply H; now right).
  destruct (Ascii.eqb c " ") eqn:E; [| reflexivity].
  apply Ascii.eqb_eq in E as ->. destruct H. now left.
Qed.

Lemma rfind_app a w : blankless w -> rfind (a ++ " " ++ w) = Some (String.length a).
Proof.
  intros H. induction a as [|c a IH]; cbn -[rfind].
  - cbn. now rewrite rfind_blankless.
  - cbn [rfind]. cbn [append] in IH. now rewrite IH.
Qed.

Lemma substring_before a b : substring 0 (String.length a) (a ++ b) = a.
Proof. induction a as [|c a IH]; cbn; [now destruct b | now rewrite IH]. Qed.

Lemma substring_after a b n : substring (String.length a) n (a ++ b) = substring 0 n b.
Proof. induction a as [|c a IH]; cbn; [reflexivity | exact IH]. Qed.

Lemma length_app a b : String.length (a ++ b) = String.length a + String.length b.
Proof. induction a as [|c a IH]; cbn; [reflexivity | now rewrite IH]. Qed.

(* The word under the cursor at the end of a line. *)
Lemma complete_end h a w : blankless w ->
  complete h (a ++ " " ++ w) (String.length (a ++ " " ++ w)) =
  let start := S (String.length a) in
  if String.eqb (first_word (a ++ " " ++ w)) "endpoint" then Offer start (starting w (names h))
  else match words (a ++ " ") with
       | [c] => if String.eqb c "config" then Offer start (starting w ["get"; "set"]) else Files
       | [c; d] => if String.eqb c "config" && (String.eqb d "get" || String.eqb d "set")
                   then Offer start (starting w (keys h)) else Files
       | _ => Files
       end.
Proof.
  intros H. unfold complete. rewrite substring_all. unfold word_start. rewrite (rfind_app a w H).
  assert (E : a ++ " " ++ w = (a ++ " ") ++ w) by now rewrite app_assoc_s.
  assert (N : S (String.length a) = String.length (a ++ " ")) by (rewrite length_app; cbn; lia).
  rewrite E, N. rewrite substring_before, substring_after, (length_app (a ++ " ") w).
  replace (String.length (a ++ " ") + String.length w - String.length (a ++ " ")) with (String.length w) by lia.
  now rewrite substring_all.
Qed.

