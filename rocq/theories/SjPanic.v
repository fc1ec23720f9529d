(* When reading panics. *)

From Coq Require Import List String Ascii NArith ZArith Bool Lia Arith.
From Verif Require Import SjModel SjSpec SjText SjLemmas SjNode SjTree SjAgain.
Import ListNotations.
Open Scope string_scope.

Lemma bind_panic {A B : Type} (x : res A) (f : A -> res B) :
  rbind x f = Panic -> x = Panic \/ exists a, x = Ok a /\ f a = Panic.
Proof. destruct x as [a| |]; cbn; [intros H; right; now exists a|discriminate|now left]. Qed.

Lemma map_panic {A B : Type} (f : A -> B) (x : res A) : rmap f x = Panic -> x = Panic.
Proof. destruct x; cbn; [discriminate|discriminate|reflexivity]. Qed.

Lemma all_panic {A : Type} (l : list (res A)) : all l = Panic -> In Panic l.
Proof.
  induction l as [|x l IH]; cbn; [discriminate|]. intros H.
  apply bind_panic in H as [->|(a & -> & H)]; [now left|].
  apply bind_panic in H as [H|(b & _ & H)]; [right; now apply IH|discriminate].
Qed.

Lemma list_panic {A : Type} (rd : json -> res A) j :
  r_list rd j = Panic -> exists l x, j = JArr l /\ In x l /\ rd x = Panic.
Proof.
  destruct j; try discriminate. cbn. intros H. apply all_panic, in_map_iff in H as (x & H & Hx).
  now exists l, x.
Qed.

Lemma field_panic {X A : Type} k (rd : X -> res A) ms :
  field k rd ms = Panic -> exists x, In (k, x) ms /\ rd x = Panic.
Proof.
  induction ms as [|[k' x] ms IH]; cbn; [discriminate|].
  destruct (String.eqb_spec k k') as [->|H].
  - destruct (existsb _ ms); [discriminate|]. intros E. apply map_panic in E. exists x. auto.
  - intros E. apply IH in E as (y & Hy & E). exists y. auto.
Qed.

Lemma of_opt_panic {A : Type} (o : option A) : of_opt o = Panic -> False.
Proof. destruct o; discriminate. Qed.

Lemma needed_panic {A : Type} (x : res (option A)) : needed x = Panic -> x = Panic.
Proof.
  unfold needed. intros H. apply bind_panic in H as [H|(a & _ & H)]; [exact H|].
  now apply of_opt_panic in H.
Qed.

Lemma ofield_panic {X A : Type} k (raw : X -> json) (rd : X -> res A) ms :
  ofield k raw rd ms = Panic -> exists x, In (k, x) ms /\ rd x = Panic.
Proof.
  unfold ofield. intros H. apply bind_panic in H as [H|(a & _ & H)]; [|discriminate].
  apply field_panic in H as (x & Hx & H). exists x. split; [exact Hx|].
  destruct (rd x); destruct (raw x); try discriminate H; reflexivity.
Qed.

Section Panic.
Context {L : lib}.
Variable Hf : forall j, read_fnum j <> Panic.

Lemma str_panic j : r_str j <> Panic. Proof. destruct j; discriminate. Qed.
Lemma bool_panic j : r_bool j <> Panic. Proof. destruct j; discriminate. Qed.

Lemma usize_panic j : r_usize j <> Panic.
Proof. destruct j; try discriminate. unfold r_usize. destruct (_ && _); discriminate. Qed.

Lemma i32_panic j : r_i32 j <> Panic.
Proof. destruct j; try discriminate. unfold r_i32. destruct (_ && _); discriminate. Qed.

Lemma from_str_panic s : iri_from_str s <> Panic.
Proof. unfold iri_from_str. destruct (iri_ok s); discriminate. Qed.

Lemma visit_panic s : iri_visit s <> Panic.
Proof. unfold iri_visit. destruct (iri_ok s); [discriminate|]. destruct (split_colon s) as [[]|]; discriminate. Qed.

Lemma iri_panic j : r_iri j <> Panic.
Proof. destruct j; try discriminate. apply visit_panic. Qed.

Lemma iris_panic j : r_iris j <> Panic.
Proof.
  destruct j; try discriminate. unfold r_iris. cbn [r_str rbind].
  destruct (String.eqb s ""); [discriminate|]. destruct (iri_ok s); discriminate.
Qed.

Lemma label_str_panic s : label_from_str s <> Panic.
Proof.
  unfold label_from_str. destruct (angle s) as [t|]; [destruct (iri_ok t); discriminate|].
  destruct (blank s); [discriminate|]. destruct (iri_ok s); discriminate.
Qed.

Lemma tlabel_str_panic s : tlabel_from_str s <> Panic.
Proof. intros H. apply map_panic in H. exact (from_str_panic s H). Qed.

Lemma borrowed_panic j : r_borrowed j <> Panic.
Proof. destruct j; try discriminate. unfold r_borrowed. cbn [r_str rbind]. destruct (plain s); discriminate. Qed.

Lemma label_panic j : r_label j <> Panic.
Proof.
  intros H. apply bind_panic in H as [H|(s & _ & H)]; [exact (borrowed_panic j H)|exact (label_str_panic s H)].
Qed.

Lemma tlabel_panic j : r_tlabel j <> Panic.
Proof.
  intros H. apply bind_panic in H as [H|(s & _ & H)]; [exact (borrowed_panic j H)|exact (tlabel_str_panic s H)].
Qed.

Ltac panics :=
  repeat match goal with
  | H : rbind _ _ = Panic |- _ => apply bind_panic in H as [H|(? & ? & H)]
  | H : rmap _ _ = Panic |- _ => apply map_panic in H
  | H : needed _ = Panic |- _ => apply needed_panic in H
  | H : of_opt _ = Panic |- _ => destruct (of_opt_panic _ H)
  | H : Ok _ = Panic |- _ => discriminate H
  | H : Err = Panic |- _ => discriminate H
  | H : known _ _ = Panic |- _ => unfold known in H; destruct (forallb _ _); discriminate H
  | H : field _ _ _ = Panic |- _ => apply field_panic in H as (? & ? & H)
  | H : ofield _ _ _ _ = Panic |- _ => apply ofield_panic in H as (? & ? & H)
  | H : r_str ?j = Panic |- _ => destruct (str_panic j H)
  | H : r_bool ?j = Panic |- _ => destruct (bool_panic j H)
  | H : r_usize ?j = Panic |- _ => destruct (usize_panic j H)
  | H : r_i32 ?j = Panic |- _ => destruct (i32_panic j H)
  | H : r_iri ?j = Panic |- _ => destruct (iri_panic j H)
  | H : r_iris ?j = Panic |- _ => destruct (iris_panic j H)
  | H : r_label ?j = Panic |- _ => destruct (label_panic j H)
  | H : r_tlabel ?j = Panic |- _ => destruct (tlabel_panic j H)
  | H : iri_from_str ?s = Panic |- _ => destruct (from_str_panic s H)
  | H : read_fnum ?j = Panic |- _ => destruct (Hf j H)
  | H : (if ?b then _ else _) = Panic |- _ => destruct b
  | H : match ?o with Some _ => _ | None => _ end = Panic |- _ => destruct o
  end.

Lemma literal_panic t v g h : r_literal t v g h <> Panic.
Proof. unfold r_literal. intros H. panics. Qed.

Lemma obj_panic j : r_obj j <> Panic.
Proof.
  destruct j; try discriminate; unfold r_obj; intros H; panics.
  now apply literal_panic in H.
Qed.

Lemma stem_panic j : r_stem j <> Panic.
Proof. destruct j; try discriminate; unfold r_stem; intros H; panics. Qed.

Lemma exc_panic j : r_exc j <> Panic.
Proof.
  destruct j; try discriminate; unfold r_exc; intros H; panics.
  - destruct (iri_visit _); discriminate.
  - destruct (iri_visit _); panics.
  - destruct (iri_visit _); discriminate.
Qed.

Lemma excs_panic j : r_list r_exc j <> Panic.
Proof. intros H. apply list_panic in H as (l & x & _ & _ & H). exact (exc_panic x H). Qed.

Lemma all_not_panic {A B : Type} (f : A -> res B) l : (forall a, f a <> Panic) -> all (map f l) <> Panic.
Proof. intros Hn H. apply all_panic, in_map_iff in H as (x & H & _). exact (Hn x H). Qed.

Lemma lit_exc_panic x : lit_exc x <> Panic. Proof. destruct x; discriminate. Qed.
Lemma iri_exc_panic x : iri_exc x <> Panic. Proof. destruct x; try discriminate. cbn. intros H. panics. Qed.
Lemma lang_exc_panic x : lang_exc x <> Panic. Proof. destruct x; try discriminate. cbn. intros H. panics. Qed.

Lemma not_there {A : Type} k (rd : json -> res A) ms :
  field k rd ms = Ok None -> forall x, ~ In (k, x) ms.
Proof.
  induction ms as [|[k' y] ms IH]; cbn; [tauto|].
  destruct (String.eqb_spec k k') as [->|H].
  - destruct (existsb _ ms); [discriminate|]. intros E. apply map_ok in E as (? & _ & ?). discriminate.
  - intros E x [Hx|Hx]; [injection Hx as Hx _; congruence|]. exact (IH E x Hx).
Qed.

Lemma value_panic j : r_value j = Panic -> bare_range j.
Proof.
  destruct j as [|b|z|s|s|l|ms]; try discriminate; unfold r_value; intros H.
  - panics.
  - apply bind_panic in H as [H|(u & _ & H)]; [panics|].
    apply bind_panic in H as [H|(t & Ht & H)]; [panics|].
    apply bind_panic in H as [H|(st & Hs & H)]; [panics; now apply stem_panic in H|].
    apply bind_panic in H as [H|(v & _ & H)]; [panics|].
    apply bind_panic in H as [H|(l & _ & H)]; [panics|].
    apply bind_panic in H as [H|(g & _ & H)]; [panics|].
    apply bind_panic in H as [H|(es & He & H)]; [panics; now apply excs_panic in H|].
    cbn zeta in H. destruct t as [t|]; [|panics; now apply literal_panic in H].
    destruct (String.eqb_spec t "LiteralStemRange") as [->|_].
    { apply bind_panic in H as [H|(st' & Es & H)]; [panics|]. destruct es as [es|].
      - apply bind_panic in H as [H|(? & _ & H)]; [|discriminate].
        now apply all_not_panic in H; [|apply lit_exc_panic].
      - exists ms. split; [constructor|].
        apply field_in in Ht as (y & Hy & Ht). destruct y; try discriminate. injection Ht as ->.
        apply of_opt_ok in Es as ->. apply field_in in Hs as (x & Hx & _).
        split; [exact Hy|]. split; [now exists x|]. exact (not_there _ _ _ He). }
    destruct (String.eqb t "LanguageStemRange").
    { panics; try (now apply all_not_panic in H; [|apply lang_exc_panic]).
      unfold lang_or_wild in H. panics. }
    destruct (String.eqb t "IriStemRange").
    { panics; try (now apply all_not_panic in H; [|apply iri_exc_panic]).
      unfold iri_or_wild in H. panics. }
    destruct (String.eqb t "LiteralStem"); [panics|].
    destruct (String.eqb t "LanguageStem"); [panics|].
    destruct (String.eqb t "Language"); [panics|].
    destruct (String.eqb t "IriStem"); [panics|].
    panics. now apply literal_panic in H.
Qed.

Lemma range_arr l x : In x l -> bare_range x -> bare_range (JArr l).
Proof. intros Hx (ms & Hi & H). exists ms. split; [exact (in_arr _ l x Hx Hi)|exact H]. Qed.

Lemma range_obj ms k x : In (k, x) ms -> bare_range x -> bare_range (JObj ms).
Proof. intros Hx (ns & Hi & H). exists ns. split; [exact (in_obj _ ms k x Hx Hi)|exact H]. Qed.

Lemma list_range {A : Type} (rd : json -> res A) j :
  (forall x, rd x = Panic -> bare_range x) -> r_list rd j = Panic -> bare_range j.
Proof.
  intros Hr H. apply list_panic in H as (l & x & -> & Hx & H). exact (range_arr l x Hx (Hr x H)).
Qed.

Lemma kind_panic j : r_kind j <> Panic.
Proof. unfold r_kind. intros H. panics. Qed.

Lemma facets_panic ms : r_facets ms <> Panic.
Proof. unfold r_facets. intros H. panics. Qed.

Lemma nodec_panic ms : r_nodec ms = Panic -> bare_range (JObj ms).
Proof.
  unfold r_nodec. intros H. panics.
  - now apply kind_panic in H.
  - eapply range_obj; [eassumption|]. apply (list_range r_value); [exact value_panic|exact H].
  - now apply facets_panic in H.
Qed.

Lemma act_panic j : r_act j <> Panic.
Proof. destruct j; try discriminate. unfold r_act. intros H. panics. Qed.

Lemma ann_panic j : r_ann j <> Panic.
Proof. destruct j; try discriminate. unfold r_ann. intros H. panics. now apply obj_panic in H. Qed.

Lemma clear_list {A : Type} (rd : json -> res A) j :
  (forall x, rd x <> Panic) -> r_list rd j <> Panic.
Proof. intros Hr H. apply list_panic in H as (l & x & _ & _ & H). exact (Hr x H). Qed.

Definition panic_both (j : json) : Prop :=
  (r_sexpr j = Panic -> bare_range j) /\ (r_texpr j = Panic -> bare_range j).

Definition panic_deep (j : json) : Prop :=
  panic_both j /\ match j with JArr l => Forall panic_both l | _ => True end.

Lemma range_untagged ms : bare_range (JObj (untagged ms)) -> ~ In ("type", JStr "LiteralStemRange") (untagged ms) ->
  bare_range (JObj ms).
Proof.
  intros (ns & Hi & Ht & H) Hn. inversion Hi as [E| |? k y Hin Hi']; subst.
  - contradiction.
  - exists ns. split; [|now split]. exact (in_obj _ ms k y (untagged_in _ _ Hin) Hi').
Qed.

Lemma no_type ms x : ~ In ("type", x) (untagged ms).
Proof. unfold untagged. rewrite filter_In. cbn. intros [_ H]. discriminate. Qed.

Lemma obj_range ms : Forall (fun m => panic_deep (snd m)) ms -> panic_both (JObj ms).
Proof.
  intros Hm. rewrite Forall_forall in Hm.
  assert (forall k j, In (k, j) (untagged ms) -> panic_deep j /\ (bare_range j -> bare_range (JObj ms))) as Hd.
  { intros k j Hin. apply untagged_in in Hin. split; [exact (Hm (k, j) Hin)|]. exact (range_obj ms k j Hin). }
  clear Hm.
  assert (forall k x, In (k, x) (untagged ms) -> r_sexpr x = Panic -> bare_range (JObj ms)) as Hs.
  { intros k x Hin H. apply Hd in Hin as [[[Hx _] _] Hin]. auto. }
  assert (forall k x, In (k, x) (untagged ms) -> r_texpr x = Panic -> bare_range (JObj ms)) as Ht.
  { intros k x Hin H. apply Hd in Hin as [[[_ Hx] _] Hin]. auto. }
  assert (forall k x, In (k, x) (untagged ms) -> r_list r_sexpr x = Panic -> bare_range (JObj ms)) as Hss.
  { intros k x Hin H. apply Hd in Hin as [[_ Hx] Hin]. apply list_panic in H as (l & y & -> & Hy & H).
    rewrite Forall_forall in Hx. exact (Hin (range_arr l y Hy (proj1 (Hx y Hy) H))). }
  assert (forall k x, In (k, x) (untagged ms) -> r_list r_texpr x = Panic -> bare_range (JObj ms)) as Hts.
  { intros k x Hin H. apply Hd in Hin as [[_ Hx] Hin]. apply list_panic in H as (l & y & -> & Hy & H).
    rewrite Forall_forall in Hx. exact (Hin (range_arr l y Hy (proj2 (Hx y Hy) H))). }
  split; intros H.
  - rewrite r_sexpr_obj in H. unfold s_obj in H. cbn zeta in H. panics; eauto.
    + apply nodec_panic in H. apply range_untagged; [exact H|]. apply no_type.
    + now apply clear_list in H; [|apply iri_panic].
    + now apply clear_list in H; [|apply act_panic].
    + now apply clear_list in H; [|apply ann_panic].
    + now apply clear_list in H; [|apply label_panic].
  - rewrite r_texpr_obj in H. unfold t_obj, t_group in H. cbn zeta in H. panics; eauto.
    + now apply clear_list in H; [|apply act_panic].
    + now apply clear_list in H; [|apply ann_panic].
    + now apply clear_list in H; [|apply act_panic].
    + now apply clear_list in H; [|apply ann_panic].
    + now apply clear_list in H; [|apply act_panic].
    + now apply clear_list in H; [|apply ann_panic].
Qed.

Fixpoint panic_all (j : json) : panic_deep j.
Proof.
  destruct j as [|b|z|s|s|l|ms].
  - split; [split; discriminate|exact Logic.I].
  - split; [split; discriminate|exact Logic.I].
  - split; [split; discriminate|exact Logic.I].
  - split; [split; discriminate|exact Logic.I].
  - split; [|exact Logic.I]. split; intros H; unfold r_sexpr, r_texpr in H; cbn [r_both fst snd] in H;
      apply map_panic in H.
    + now apply label_str_panic in H.
    + now apply tlabel_str_panic in H.
  - split; [split; discriminate|]. induction l as [|j l IH]; constructor; [exact (proj1 (panic_all j))|exact IH].
  - split; [|exact Logic.I]. apply obj_range. induction ms as [|[k j] ms IH]; constructor; [exact (panic_all j)|exact IH].
Qed.

Lemma sexpr_panic j : r_sexpr j = Panic -> bare_range j.
Proof. exact (proj1 (proj1 (panic_all j))). Qed.

Lemma decl_panic j : r_decl j = Panic -> bare_range j.
Proof.
  destruct j; try discriminate. unfold r_decl. intros H. panics.
  eapply range_obj; [eassumption|]. exact (sexpr_panic _ H).
Qed.

Lemma import_panic j : r_import j <> Panic.
Proof. unfold r_import. intros H. panics. Qed.

Lemma prefixes_panic j : r_prefixes j <> Panic.
Proof.
  destruct j; try discriminate. cbn [r_prefixes]. generalize (@nil (string * string)) as acc.
  induction ms as [|[k j] ms IH]; intros acc; cbn -[r_iris]; [discriminate|].
  intros H. panics. now apply IH in H.
Qed.

Theorem schema_panic j : r_schema j = Panic -> bare_range j.
Proof.
  destruct j; try discriminate. unfold r_schema. intros H. panics.
  - now apply clear_list in H; [|apply import_panic].
  - eapply range_obj; [eassumption|]. exact (sexpr_panic _ H).
  - now apply clear_list in H; [|apply act_panic].
  - eapply range_obj; [eassumption|]. apply (list_range r_decl); [exact decl_panic|exact H].
  - now apply prefixes_panic in H.
Qed.

End Panic.
