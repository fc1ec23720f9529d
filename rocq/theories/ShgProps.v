(* Generating data from SHACL shapes: properties. *)
From Coq Require Import List String Ascii Bool ZArith NArith QArith Permutation Lia Decimal DecimalString.
Import ListNotations.
From Verif Require Import SjModel CoModel CoSpec SqModel SqSpec SqLemmas GenModel GenSpec GenLemmas GenNames GenEntity GenGraph GenWhole GenAny GenProps CmModel CmSpec CmLemmas ShgModel ShgSpec ShgLemmas ShgGraph.
Open Scope string_scope.
Open Scope Z_scope.

(* The data of easy shapes: of every shape there are the entities it is allotted, and they satisfy it.  If targets are the shapes
   themselves, then the data conform.  The full statement: the data made from any shapes conform to them. *)
Theorem C93_conforms_partial {L : lib} {G : glib} (ord : forall A : Type, list (string * A) -> list (string * A)) checks rand cfg other sch :
  (forall A l, Permutation (ord A l) l) -> easy_shapes_graph sch -> whole_entities cfg -> texts -> divides cfg ->
  exists ts, generate_shacl ord checks rand cfg sch = Ok ts /\ good_shapes other cfg sch ts /\ (own_targets sch -> conforming ts other sch).
Proof. intros P E W T D. apply shacl_good; assumption. Qed.
Print Assumptions C93_conforms_partial.

(* What is counted as kept is not more than what there is, and is all of it if and only if every component is converted and the
   numbers of values are given once. *)
Theorem C93_loss sch : NoDup (List.map fst sch) -> let r := shacl_translation sch in
  0 <= t_represented r <= t_original r /\ (t_represented r = t_original r <-> all_converted sch).
Proof.
  intro N. unfold shacl_translation. cbv zeta. cbn [t_represented t_original]. set (one_shape := fun s => sum (List.map property_counts (property_shapes sch s))).
  assert (A : forall s, fair (one_shape s) /\ (lossless (one_shape s) <-> Forall (fun ps => lossless (property_counts ps)) (property_shapes sch s))).
  { intro s. unfold one_shape. destruct (sum_fair (List.map property_counts (property_shapes sch s))) as [B C].
    - apply Forall_forall. intros c I. apply in_map_iff in I. destruct I as (ps & <- & _). apply property_fair.
    - split; [exact B|]. rewrite C, Forall_map. reflexivity. }
  destruct (sum_fair (List.map one_shape (node_shapes sch))) as [B C]. { apply Forall_forall. intros c I. apply in_map_iff in I. destruct I as (s & <- & _). apply A. }
  split; [exact B|]. unfold fair in B. unfold lossless in C. transitivity (fst (sum (List.map one_shape (node_shapes sch))) <= snd (sum (List.map one_shape (node_shapes sch)))); [lia|]. rewrite C, Forall_map, Forall_forall.
  assert (In_ps : forall s ps, In ps (property_shapes sch s) <-> exists n, In n (ns_props s) /\ In (n, SPropShape ps) sch).
  { intros s ps. unfold property_shapes. rewrite in_somes, in_map_iff. split.
    - intros (n & E & I). exists n. split; [exact I|]. destruct (get_shape n sch) as [[|ps']|] eqn:Eg; try discriminate. injection E as ->. apply get_shape_iff; assumption.
    - intros (n & I & J). exists n. split; [|exact I]. rewrite (proj2 (get_shape_iff n _ sch N) J). reflexivity. }
  split.
  - intros H k s n ps I J K. assert (Is : In s (node_shapes sch)) by (apply in_node_shapes; eauto). pose proof (H s Is) as Hs. apply A in Hs. rewrite Forall_forall in Hs.
    assert (Ip : In ps (property_shapes sch s)) by (apply In_ps; eauto). specialize (Hs ps Ip). destruct (property_fair ps) as [F1 F2]. apply F2. unfold lossless in Hs. lia.
  - intros H s Is. apply A. apply Forall_forall. intros ps Ip. apply In_ps in Ip. destruct Ip as (n & J & K). apply in_node_shapes in Is. destruct Is as (k & I).
    pose proof (H k s n ps I J K) as X. destruct (property_fair ps) as [F1 F2]. apply F2 in X. unfold lossless. lia.
Qed.
Print Assumptions C93_loss.

(* ------------------------------------------------------------------ *)
(* Examples                                                             *)

#[local] Existing Instance l0.
#[local] Existing Instance g0.
Definition node_of id ts ps cs : name * shape := (NmIri id, SNodeShape {| ns_id := NmIri id; ns_targets := ts; ns_props := List.map NmIri ps; ns_comps := cs |}).
Definition prop_of id p cs : name * shape := (NmIri id, SPropShape {| ps_id := NmIri id; ps_path := p; ps_comps := cs |}).
Definition int z : lit := {| l_lex := z; l_dt := xsd "integer" |}.
Definition workers : schema :=
  [node_of "P" [TgClass "P"] ["a"; "b"] []; prop_of "a" (PPred "name") [KMinCount 1; KMaxCount 1; KDatatype (xsd "string")];
   prop_of "b" (PPred "age") [KDatatype (xsd "integer"); KNodeKind UKLiteral; KMinIn (int "18"); KMaxEx (int "30"); KMinCount 0; KMaxCount 1]].
Lemma workers_easy : easy_shapes_graph workers.
Proof.
  split; [repeat constructor; cbn; intuition discriminate|]. intros n s [E|[E|[E|[]]]]; try discriminate E. injection E as <- <-. split; [reflexivity|].
  split; [exists "P"; split; reflexivity|]. split; [reflexivity|]. eexists. split.
  - eapply Po_cons; [right; left; reflexivity|]. eapply Po_cons; [right; right; left; reflexivity|]. apply Po_nil.
  - split; [repeat constructor; cbn; intuition discriminate|]. repeat (apply Forall_cons); [..|apply Forall_nil].
    + split; [exists "name"; split; [reflexivity|discriminate]|]. split.
      * exists (xsd "string"). split; [cbn; tauto|]. split; [cbn; tauto|]. split; [intros c [<-|[<-|[<-|[]]]]; eauto 6|]. exists (-1000), 10000. unfold small. split; [lia|]. split; [lia|]. split; [lia|].
        split; [intros c [<-|[<-|[<-|[]]]] (l & [E|E]); discriminate E|]. split; [auto|]. split; [intros c [<-|[<-|[<-|[]]]] (l & [E|E]); discriminate E|auto].
      * exists (Some 1), (Some 1). cbn. repeat split; auto; try lia; intros y H; repeat (destruct H as [H|H]; try discriminate H); try (injection H as <-; reflexivity); destruct H.
    + split; [exists "age"; split; [reflexivity|discriminate]|]. split.
      * exists (xsd "integer"). split; [cbn; tauto|]. split; [cbn; tauto|]. split.
        { intros c [<-|[<-|[<-|[<-|[<-|[<-|[]]]]]]]; [auto|right; left; exists UKLiteral; split; [reflexivity|left; reflexivity]| | |right; right; left; eauto|right; right; left; eauto];
          right; right; right; (split; [reflexivity|]); [left|right]; eexists; eauto. }
        exists 18, 29. unfold small. split; [lia|]. split; [lia|]. split; [lia|].
        split; [intros c [<-|[<-|[<-|[<-|[<-|[<-|[]]]]]]] (l & [E|E]); try discriminate E; left; eexists; split; [reflexivity|]; reflexivity|].
        split; [right; eexists; split; [right; right; left; reflexivity|]; eexists; left; reflexivity|].
        split; [intros c [<-|[<-|[<-|[<-|[<-|[<-|[]]]]]]] (l & [E|E]); try discriminate E; right; exists (int "30"), 30; split; [reflexivity|]; split; reflexivity|].
        right. eexists. split; [right; right; right; left; reflexivity|]. eexists. right. reflexivity.
      * exists (Some 0), (Some 1). cbn. repeat split; auto 8; try lia; intros y H; repeat (destruct H as [H|H]; try discriminate H); try (injection H as <-; reflexivity); destruct H.
Qed.
Example C93_met : easy_shapes_graph workers /\ own_targets workers /\ whole_entities (default_config 2) /\ texts /\ divides (default_config 2) /\
  generate_shacl ord0 true rand0 (default_config 2) workers =
    Ok [{| tr_s := "P-1"; tr_p := rdf_type; tr_o := TmIri "P" |}; {| tr_s := "P-1"; tr_p := "name"; tr_o := TmLit "t" (xsd "string") |};
        {| tr_s := "P-2"; tr_p := rdf_type; tr_o := TmIri "P" |}; {| tr_s := "P-2"; tr_p := "age"; tr_o := TmLit "21" (xsd "integer") |};
        {| tr_s := "P-2"; tr_p := "name"; tr_o := TmLit "t" (xsd "string") |}].
Proof.
  split; [exact workers_easy|]. split.
  { intros n s t [E|[E|[E|[]]]] I; try discriminate E. injection E as <- <-. destruct I as [<-|[]]. exists "P". auto. }
  split; [repeat split; auto; destruct H|]. split; [exact texts0|]. split; [split; [cbn; lia|exact Logic.I]|]. vm_compute. reflexivity.
Qed.
Example C93_loss_met : all_converted workers /\ t_original (shacl_translation workers) = 9 /\
  t_represented (shacl_translation [node_of "P" [] ["a"] []; prop_of "a" (PPred "p") [KMinCount 1; KMinCount 1; KMaxCount (-1); KOther "class"; KIn []]]) = 2.
Proof.
  split; [|split; vm_compute; reflexivity]. intros k s n ps [E|[E|[E|[]]]]; try discriminate E. injection E as <- <-. intros [<-|[<-|[]]] [E|[E|[E|[]]]]; try discriminate E; injection E as <-;
    (split; [intros c I; repeat (destruct I as [<-|I]; [cbn; try exact Logic.I; lia|]); destruct I|split; cbn; lia]).
Qed.

(* ------------------------------------------------------------------ *)
(* Where the data are not as they should be                             *)


(* A class as target: no node has it for a type. *)
Definition shape_of_class : schema := [node_of "PShape" [TgClass "P"] ["a"] []; prop_of "a" (PPred "name") [KMinCount 1; KDatatype (xsd "string")]].
Theorem C93_class_refuted : exists sch s, In (NmIri "PShape", SNodeShape s) sch /\ forall st, exists ts, generate_shacl ord0 true rand0 (with_strategy st) sch = Ok ts /\
  arc ts (TmIri "PShape-1") the_type (TmIri "PShape") /\ forall n, ~ focus ts s n.
Proof.
  eexists shape_of_class, _. split; [left; reflexivity|]. intro st. eexists. split; [destruct st; vm_compute; reflexivity|].
  split; [exists "PShape-1"; split; [reflexivity|]; destruct st; left; reflexivity|].
  intros n [(c & [[E|[]]|[E|[]]] & A)|[(i & [E|[]] & _)|[(p & o & [E|[]] & _)|(p & o & [E|[]] & _)]]]; try discriminate E. injection E as <-. destruct A as (x & _ & A).
  destruct st; cbn in A; repeat (destruct A as [A|A]; [discriminate A|]); destruct A.
Qed.
Print Assumptions C93_class_refuted.

(* A node as target: nothing is made of it. *)
Definition shape_of_node : schema := [node_of "P" [TgNode "alice"] ["a"] []; prop_of "a" (PPred "name") [KMinCount 1; KDatatype (xsd "string")]].
Theorem C93_node_refuted : exists sch, easy_shapes_graph sch /\ forall st, exists ts, generate_shacl ord0 true rand0 (with_strategy st) sch = Ok ts /\ forall other, ~ conforming ts other sch.
Proof.
  exists shape_of_node. split.
  - split; [repeat constructor; cbn; intuition discriminate|]. intros n s [E|[E|[]]]; try discriminate E. injection E as <- <-. split; [reflexivity|].
    split; [exists "P"; split; reflexivity|]. split; [reflexivity|]. eexists. split; [eapply Po_cons; [right; left; reflexivity|]; apply Po_nil|].
    split; [repeat constructor; intros []|]. apply Forall_cons; [|apply Forall_nil]. split; [exists "name"; split; [reflexivity|discriminate]|]. split.
    + exists (xsd "string"). split; [cbn; tauto|]. split; [cbn; tauto|]. split; [intros c [<-|[<-|[]]]; eauto 6|]. exists (-1000), 10000. unfold small. split; [lia|]. split; [lia|]. split; [lia|].
      split; [intros c [<-|[<-|[]]] (l & [E|E]); discriminate E|]. split; [auto|]. split; [intros c [<-|[<-|[]]] (l & [E|E]); discriminate E|auto].
    + exists (Some 1), None. cbn. repeat split; auto; try lia; intros y H; repeat (destruct H as [H|H]; try discriminate H); try (injection H as <-; reflexivity); destruct H.
  - intro st. eexists. split; [destruct st; vm_compute; reflexivity|]. intros other C. destruct (C (NmIri "P") _ (TmIri "alice") (or_introl eq_refl)) as [H _].
    { right. left. exists "alice". split; [left|]; reflexivity. }
    destruct (H _ (KMinCount 1) (ex_intro _ _ (conj (or_introl eq_refl) (or_intror (or_introl eq_refl)))) (or_introl eq_refl)) as (l & _ & Hl & Len).
    destruct l as [|o l]; [cbn in Len; lia|]. specialize (Hl o (or_introl eq_refl)). cbn in Hl. inversion Hl as [? ? ? A | | | | | | | | | ]; subst. destruct A as (x & E & A). injection E as <-.
    destruct st; cbn in A; repeat (destruct A as [A|A]; [discriminate A|]); destruct A.
Qed.
Print Assumptions C93_node_refuted.

(* At least two values, and no greatest number: nothing is made at all. *)
Theorem C93_twice_refuted : exists sch, forall checks rand st, st = Random \/ st = Balanced -> generate_shacl ord0 checks rand (with_strategy st) sch = Panic.
Proof.
  exists [node_of "P" [TgClass "P"] ["a"] []; prop_of "a" (PPred "name") [KMinCount 2; KDatatype (xsd "string")]].
  intros checks rand st [-> | ->]; destruct checks; vm_compute; reflexivity.
Qed.
Print Assumptions C93_twice_refuted.

(* The claim that is refuted next: the data are made, and conform. *)
Definition one_value (cs : list component) : schema := [node_of "P" [TgClass "P"] ["a"] []; prop_of "a" (PPred "p") cs].
Definition made_and_conforming (other : component -> (term -> Prop) -> Prop) st sch : Prop :=
  exists ts, generate_shacl ord0 true rand0 (with_strategy st) sch = Ok ts /\ conforming ts other sch.
Lemma first_value other st cs c : made_and_conforming other st (one_value cs) -> In c cs ->
  exists ts, generate_shacl ord0 true rand0 (with_strategy st) (one_value cs) = Ok ts /\ (arc ts (TmIri "P-1") the_type (TmIri "P") -> holds other c (fun o => along ts (PPred "p") (TmIri "P-1") o)).
Proof.
  intros (ts & E & C) I. exists ts. split; [exact E|]. intro A. destruct (C (NmIri "P") _ (TmIri "P-1") (or_introl eq_refl)) as [H _].
  - left. exists "P". split; [left; left; reflexivity|exact A].
  - exact (H _ c (ex_intro _ _ (conj (or_introl eq_refl) (or_intror (or_introl eq_refl)))) I).
Qed.
Lemma along_pred ts p n o : along ts (PPred p) n o <-> arc ts n p o.
Proof. split; [intro A; inversion A; subst; assumption|apply Al_pred]. Qed.

(* No datatype: no value is made, though one is asked for. *)
Theorem C93_values_refuted : exists v k, Forall (fun c => forall other st, ~ made_and_conforming other st (one_value [KMinCount 1; c]))
  [KIn [v]; KHasValue v; KNodeKind k; KPattern "a"; KMinLength 1; KMinIn (int "1")].
Proof.
  exists (VIri "a"), UKIri. repeat (apply Forall_cons); [..|apply Forall_nil]; intros other st M; destruct (first_value other st _ _ M (or_introl eq_refl)) as (ts & E & H);
  (destruct st; vm_compute in E; injection E as <-; specialize (H (ex_intro _ "P-1" (conj eq_refl (or_introl eq_refl)))); destruct H as (l & _ & Hl & Len);
   (destruct l as [|o l]; [cbn in Len; lia|]); specialize (Hl o (or_introl eq_refl)); apply along_pred in Hl; destruct Hl as (x & _ & A); cbn in A; repeat (destruct A as [A|A]; [discriminate A|]); destruct A).
Qed.
Print Assumptions C93_values_refuted.

(* The class of values is dropped, and values are texts. *)
Definition no_literals (c : component) (V : term -> Prop) : Prop := match c with KOther "class" => forall o, V o -> exists i, o = TmIri i | _ => True end.
Theorem C93_dropped_refuted : exists sch, forall st, ~ made_and_conforming no_literals st sch.
Proof.
  exists (one_value [KOther "class"; KMinCount 1]). intros st M. destruct (first_value _ st _ _ M (or_introl eq_refl)) as (ts & E & H).
  destruct st; vm_compute in E; injection E as <-; (destruct (H (ex_intro _ "P-1" (conj eq_refl (or_introl eq_refl))) (TmLit "t" (xsd "string"))) as (i & Ei); [apply along_pred; exists "P-1"; split; [reflexivity|right; left; reflexivity]|discriminate Ei]).
Qed.
Print Assumptions C93_dropped_refuted.

(* No value is allowed, and one is made. *)
Theorem C93_none_refuted : exists sch, forall other, ~ made_and_conforming other Maximum sch.
Proof.
  exists (one_value [KMaxCount 0; KDatatype (xsd "string")]). intros other M. destruct (first_value _ Maximum _ _ M (or_introl eq_refl)) as (ts & E & H).
  vm_compute in E; injection E as <-. specialize (H (ex_intro _ "P-1" (conj eq_refl (or_introl eq_refl))) [TmLit "t" (xsd "string")]). cbn in H.
  enough (1 <= 0) by lia. apply H; [repeat constructor; intros []|]. intros o [<-|[]]. apply along_pred. exists "P-1". split; [reflexivity|right; left; reflexivity].
Qed.
Print Assumptions C93_none_refuted.

(* Paths: the text of a path is taken for a property. *)
Definition by_path (p : path) : schema := [node_of "P" [TgClass "P"] ["a"] []; prop_of "a" p [KMinCount 1; KDatatype (xsd "string")]].
Theorem C93_path_refuted : exists p q : string, forall st, exists ts, generate_shacl ord0 true rand0 (with_strategy st) (by_path (PSeq [PPred p; PPred q])) = Ok ts /\
  arc ts (TmIri "P-1") "(p / q)" (TmLit "t" (xsd "string")) /\ forall other, ~ conforming ts other (by_path (PSeq [PPred p; PPred q])).
Proof.
  exists "p", "q". intro st. eexists. split; [destruct st; vm_compute; reflexivity|]. split; [exists "P-1"; split; [reflexivity|]; destruct st; right; left; reflexivity|].
  intros other C. destruct (C (NmIri "P") _ (TmIri "P-1") (or_introl eq_refl)) as [H _].
  { left. exists "P". split; [left; left; reflexivity|]. exists "P-1". split; [reflexivity|]. destruct st; left; reflexivity. }
  destruct (H _ (KMinCount 1) (ex_intro _ _ (conj (or_introl eq_refl) (or_intror (or_introl eq_refl)))) (or_introl eq_refl)) as (l & _ & Hl & Len).
  destruct l as [|o l]; [cbn in Len; lia|]. specialize (Hl o (or_introl eq_refl)). cbn in Hl. inversion Hl as [ | | |? ? ? m ? A B | | | | | | ]; subst. apply along_pred in A. destruct A as (x & _ & A).
  destruct st; cbn in A; repeat (destruct A as [A|A]; [discriminate A|]); destruct A.
Qed.
Print Assumptions C93_path_refuted.

(* What is asked of the focus nodes themselves is neither converted nor counted. *)
Theorem C93_counted_refuted : exists sch sch' c, sch = [node_of "P" [] [] [c]] /\ sch' = [node_of "P" [] [] []] /\ ~ converted c /\
  convert_schema sch = convert_schema sch' /\ shacl_translation sch = shacl_translation sch' /\ t_represented (shacl_translation sch) = t_original (shacl_translation sch).
Proof. eexists _, _, (KOther "closed"). repeat split. intros []. Qed.
Print Assumptions C93_counted_refuted.
