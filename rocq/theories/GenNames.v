(* Lemmas about the generator: the names of entities. *)
From Coq Require Import List String Ascii Bool ZArith Decimal DecimalString DecimalZ DecimalPos Lia.
Import ListNotations.
From Verif Require Import SjModel CoModel GenModel GenSpec GenLemmas.
Open Scope string_scope.
Open Scope Z_scope.

Fixpoint no_dash (s : string) : Prop := match s with EmptyString => True | String c s => c <> "-"%char /\ no_dash s end.

Lemma uint_no_dash d : no_dash (NilEmpty.string_of_uint d).
Proof. induction d; cbn; try split; auto; discriminate. Qed.
Lemma show_no_dash z : 0 <= z -> no_dash (show_z z).
Proof.
  intro H. unfold show_z. destruct z as [|p|p]; [cbn; split; [discriminate|exact Logic.I]| |lia].
  cbn [Z.to_int]. unfold NilZero.string_of_int, NilZero.string_of_uint. pose proof (uint_no_dash (Pos.to_uint p)) as K.
  destruct (Pos.to_uint p); cbn in *; auto; split; auto; discriminate.
Qed.

Lemma dash_split a b : forall x y, no_dash x -> no_dash y -> a ++ "-" ++ x = b ++ "-" ++ y -> a = b /\ x = y.
Proof.
  assert (D : forall s t, no_dash (s ++ "-" ++ t) -> False).
  { induction s as [|c s IH]; intros t; cbn; [intros [K _]; apply K; reflexivity|intros [_ K]; exact (IH _ K)]. }
  revert b. induction a as [|c a IH]; intros [|c' b] x y X Y E; cbn in E.
  - injection E as E. auto.
  - injection E as E1 E2. subst x. destruct (D b y X).
  - injection E as E1 E2. subst y. destruct (D a x Y).
  - injection E as -> E. destruct (IH b x y X Y E) as [-> ->]. auto.
Qed.

Lemma show_z_inj a b : show_z a = show_z b -> a = b.
Proof.
  intro E. destruct (show_z_denotes a) as (i & I1 & I2), (show_z_denotes b) as (j & J1 & J2). rewrite E in I1. rewrite I1 in J1. injection J1 as <-. congruence.
Qed.

Lemma entity_inj a b i j : 0 <= i -> 0 <= j -> entity_iri a i = entity_iri b j -> a = b /\ i = j.
Proof.
  intros I J E. unfold entity_iri in E. destruct (dash_split _ _ _ _ (show_no_dash i I) (show_no_dash j J) E) as [-> K]. split; [reflexivity|apply show_z_inj, K].
Qed.

(* Nested entities have other names than the entities of the same shape. *)
Lemma nested_apart r i j k : 0 <= i -> 0 <= j -> 0 <= k -> r ++ "-" ++ show_z i ++ "-" ++ show_z j <> entity_iri r k.
Proof.
  intros I J K E. unfold entity_iri in E.
  assert (A : forall (a b c : string), a ++ b ++ c = (a ++ b) ++ c). { induction a as [|x a IH]; intros; cbn; [reflexivity|]. rewrite IH. reflexivity. }
  rewrite (A "-" (show_z i)) in E. rewrite (A r) in E. destruct (dash_split _ _ _ _ (show_no_dash j J) (show_no_dash k K) E) as [E' _].
  assert (Len : forall a b, String.length (a ++ b) = (String.length a + String.length b)%nat). { induction a as [|x a IH]; intros; cbn; [reflexivity|]. rewrite IH. reflexivity. }
  apply (f_equal String.length) in E'. rewrite !Len in E'. cbn in E'. lia.
Qed.
