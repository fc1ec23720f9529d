(* Semantic actions: properties. *)
From Coq Require Import List Ascii String Bool Arith Lia.
Import ListNotations.
From Verif Require Import SaModel SaSpec SaLemmas.
Open Scope list_scope.

(* A text is a call in one way only. *)
Theorem C95_one_call s d a d' a' : call s d a -> call s d' a' -> d = d' /\ a = a'.
Proof.
  intros C C'. destruct (call_captures s d a C) as (w & W & E), (call_captures s d' a' C') as (w' & W' & E'). rewrite E in E'. injection E' as Ed Ea Ew. subst w'.
  split; [destruct d, d'; (reflexivity || discriminate)|]. apply (written_one w a w a' [] []); auto.
Qed.
Print Assumptions C95_one_call.

(* Test: texts that are no calls are an error, print prints and fail fails with the message, in which escapes have been replaced.
   The full statement: and calls whose particle has no value are an error. *)
Theorem C95_test_partial {L : lib} c ctx st :
  (fst (run_test (Some c) ctx st) = Wrong InvalidTest <-> forall d a, ~ call c d a) /\
  (forall a m, call c Print a -> says ctx a m -> run_test (Some c) ctx st = (Fine, {| mapped := mapped st; printed := printed st ++ [m] |})) /\
  (forall a m, call c Fail a -> says ctx a m -> run_test (Some c) ctx st = (Wrong (Failed m), st)) /\
  ((forall a, ~ call c Print a) -> snd (run_test (Some c) ctx st) = st).
Proof.
  unfold run_test. repeat split.
  - rewrite <- captures_none. destruct (captures re_test c) as [x|]; [|reflexivity]. destruct (match group 1 x with Some d => text_eqb d (t "print") | None => false end); discriminate.
  - intro H. apply captures_none in H. rewrite H. reflexivity.
  - intros a m C S. destruct (call_captures c Print a C) as (w & W & ->). cbn [group Nat.eqb keyword]. rewrite text_eqb_refl. pose proof (message_says w a Print ctx m W S) as E. cbn [keyword] in E. rewrite E. reflexivity.
  - intros a m C S. destruct (call_captures c Fail a C) as (w & W & ->). cbn [group Nat.eqb]. pose proof (message_says w a Fail ctx m W S) as E. rewrite E. reflexivity.
  - intro N. destruct (captures re_test c) as [x|] eqn:E; [|reflexivity]. apply captures_some in E. destruct E as [i j k l m d w a W]. destruct d; [|reflexivity]. exfalso. apply (N a). constructor. exact W.
Qed.
Print Assumptions C95_test_partial.

(* Map: the object is put at the IRI of the code, whatever was there; else nothing changes. *)
Theorem C95_map {L : lib} c ctx st :
  (forall k o, names c k -> c_o ctx = Some o -> fst (run_map (Some c) ctx st) = Fine /\ printed (snd (run_map (Some c) ctx st)) = printed st /\
     get k (mapped (snd (run_map (Some c) ctx st))) = Some o /\ forall k', k' <> k -> get k' (mapped (snd (run_map (Some c) ctx st))) = get k' (mapped st)) /\
  ((exists k, names c k) -> c_o ctx = None -> run_map (Some c) ctx st = (Wrong NoObject, st)) /\
  ((forall k, ~ names c k) -> run_map (Some c) ctx st = (Wrong InvalidParameter, st)).
Proof.
  unfold run_map. split; [|split].
  - intros k o N O. apply parse_names in N. rewrite N, O. cbn [fst snd mapped printed]. rewrite get_put, text_eqb_refl. repeat split. intros k' Ne. rewrite get_put. destruct (text_eqb k' k) eqn:E; [apply text_eqb_iff in E; contradiction|reflexivity].
  - intros (k & N) O. apply parse_names in N. rewrite N, O. reflexivity.
  - intro N. destruct (parse_turtle (trim c)) as [k|] eqn:E; [apply parse_names in E; destruct (N k E)|reflexivity].
Qed.
Print Assumptions C95_map.

(* The action with a name is that of the first extension whose IRI it is, with any fragment. *)
Theorem C95_dispatch {L : lib} reg iri e : find_code reg iri = Some e <->
  exists l l', reg = l ++ e :: l' /\ based (extension_iri e) iri /\ forall x, In x l -> ~ based (extension_iri x) iri.
Proof.
  unfold find_code. induction reg as [|x reg IH]; cbn [List.find].
  - split; [discriminate|]. intros ([|] & l' & E & _); discriminate.
  - destruct (equal_without_fragment (extension_iri x) iri) eqn:E.
    + apply same_extension in E. split.
      * intro H. injection H as ->. exists [], reg. split; [reflexivity|]. split; [exact E|intros ? []].
      * intros ([|y l] & l' & H & B & N); [injection H as -> _; reflexivity|]. injection H as -> _. destruct (N y (or_introl eq_refl) E).
    + rewrite IH. split.
      * intros (l & l' & -> & B & N). exists (x :: l), l'. split; [reflexivity|]. split; [exact B|]. intros y [<-|I]; [|apply N, I]. intro F. apply same_extension in F. congruence.
      * intros ([|y l] & l' & H & B & N).
        -- injection H as -> _. apply same_extension in B. congruence.
        -- injection H as -> H. exists l, l'. split; [exact H|]. split; [exact B|]. intros z I. apply N. right. exact I.
Qed.
Print Assumptions C95_dispatch.

Section Usual.
Context {L : lib}.
Lemma usual_test iri : based (t "http://shex.io/extensions/Test/") iri -> find_code usual iri = Some Test.
Proof. intro B. apply C95_dispatch. exists [], [Map]. split; [reflexivity|]. split; [exact B|intros ? []]. Qed.
Lemma usual_map iri : based (t "http://shex.io/extensions/Map/") iri -> find_code usual iri = Some Map.
Proof.
  intro B. unfold find_code, usual. cbn [List.find]. destruct (equal_without_fragment (extension_iri Test) iri) eqn:E.
  - exfalso. unfold equal_without_fragment in E. apply text_eqb_iff in E. assert (F : equal_without_fragment (extension_iri Map) iri = true) by (apply same_extension; exact B). unfold equal_without_fragment in F. apply text_eqb_iff in F. rewrite <- E in F. discriminate F.
  - rewrite (proj2 (same_extension Map iri) B). reflexivity.
Qed.
Lemma usual_cases iri : (find_code usual iri = Some Test /\ based (t "http://shex.io/extensions/Test/") iri) \/ (find_code usual iri = Some Map /\ based (t "http://shex.io/extensions/Map/") iri) \/
  find_code usual iri = None.
Proof.
  destruct (find_code usual iri) as [[]|] eqn:E; [left|right; left|right; right; reflexivity]; (split; [reflexivity|]); apply C95_dispatch in E; destruct E as (_ & _ & _ & B & _); exact B.
Qed.
Definition after (e : effect) (st : state) : state :=
  match e with
  | Nothing => st
  | Prints m => {| mapped := mapped st; printed := printed st ++ [m] |}
  | Maps k o => {| mapped := put k o (mapped st); printed := printed st |}
  end.
Lemma fine_runs ctx a e st : fine ctx a e -> run_action usual (name a) (code a) ctx st = (Fine, after e st).
Proof.
  unfold run_action. intros [B C|c arg m B C K S|c k o B C N O]; rewrite C.
  - rewrite (usual_test _ B). reflexivity.
  - rewrite (usual_test _ B). apply (C95_test_partial c ctx st) with (2 := S). exact K.
  - rewrite (usual_map _ B). cbn [run_extension]. unfold run_map. apply parse_names in N. rewrite N, O. reflexivity.
Qed.
Lemma runs_fine ctx a st : (forall c d arg, code a = Some c -> call c d arg -> bound ctx arg) -> fst (run_action usual (name a) (code a) ctx st) = Fine -> exists e, fine ctx a e.
Proof.
  unfold run_action. intros Bd H. destruct (usual_cases (name a)) as [[E B]|[[E B]|E]]; rewrite E in H; [| |discriminate H].
  - destruct (code a) as [c|] eqn:C; [|exists Nothing; constructor; assumption]. cbn [run_extension] in H. destruct (captures re_test c) as [x|] eqn:P.
    + pose proof (captures_some _ _ P) as Q. assert (K : exists d arg, call c d arg) by (destruct Q as [i j k l m d w arg W]; exists d, arg; constructor; exact W). destruct K as (d & arg & K). destruct (Bd c d arg eq_refl K) as (m & S). destruct d.
      * exists (Prints m). apply (Fine_print ctx a c arg m); assumption.
      * destruct (C95_test_partial c ctx st) as (_ & _ & F & _). rewrite (F arg m K S) in H. discriminate H.
    + unfold run_test in H. rewrite P in H. discriminate H.
  - destruct (code a) as [c|] eqn:C; [|discriminate H]. cbn [run_extension] in H. unfold run_map in H. destruct (parse_turtle (trim c)) as [k|] eqn:P; [|discriminate H]. destruct (c_o ctx) as [o|] eqn:O; [|discriminate H].
    exists (Maps k o). apply parse_names in P. apply (Fine_map ctx a c k o); assumption.
Qed.
Lemma after_messages es st : printed (fold_left (fun st e => after e st) es st) = printed st ++ messages es.
Proof.
  revert st. induction es as [|e es IH]; intro st; cbn [fold_left]; [cbn; rewrite app_nil_r; reflexivity|]. rewrite IH. destruct e; cbn [after printed messages flat_map]; [reflexivity|rewrite <- app_assoc; reflexivity|reflexivity].
Qed.
Lemma after_mapped es st k : (forall n, last_of k es n -> get k (mapped (fold_left (fun st e => after e st) es st)) = Some n) /\
  ((forall n, ~ In (Maps k n) es) -> get k (mapped (fold_left (fun st e => after e st) es st)) = get k (mapped st)).
Proof.
  assert (Q : forall es st, (forall n, ~ In (Maps k n) es) -> get k (mapped (fold_left (fun st e => after e st) es st)) = get k (mapped st)).
  { clear. induction es as [|e es IH]; intros st N; cbn [fold_left]; [reflexivity|]. rewrite IH by (intros n I; apply (N n); right; exact I). destruct e as [|m|k' o]; cbn [after mapped]; try reflexivity. rewrite get_put.
    destruct (text_eqb k k') eqn:E; [|reflexivity]. apply text_eqb_iff in E. subst k'. destruct (N o). left. reflexivity. }
  split; [|apply Q]. intros n H. destruct H as [es n es' N]. rewrite fold_left_app. cbn [fold_left]. rewrite Q by exact N. cbn [after mapped]. rewrite get_put, text_eqb_refl. reflexivity.
Qed.
Lemma acts_run ctx acts es p v st : Forall2 (fine ctx) acts es ->
  eval_all (Some usual) (List.map SemAct acts ++ [Check p]) v ctx st = (p v, fold_left (fun st e => after e st) es st).
Proof.
  intro F. revert st. induction F as [|a e acts es H F IH]; intro st; cbn [List.map app eval_all eval fold_left].
  - destruct (p v); reflexivity.
  - rewrite (fine_runs ctx a e st H). apply IH.
Qed.
End Usual.

(* Triple constraints with actions: a value matches if and only if it has the value expression and all actions are fine; then what has
   been printed and mapped is what the actions do, in order.  The full statement: also if particles have no value, and nothing is printed
   or mapped for values that do not match. *)
Theorem C95_condition_partial {L : lib} acts p cs v ctx st : compile usual acts p = Some cs -> all_bound ctx acts ->
  (fst (eval_all (Some usual) cs v ctx st) = true <-> p v = true /\ forall a, In a acts -> exists e, fine ctx a e) /\
  forall es, Forall2 (fine ctx) acts es ->
    let st' := snd (eval_all (Some usual) cs v ctx st) in
    printed st' = printed st ++ messages es /\
    forall k, (forall n, last_of k es n -> get k (mapped st') = Some n) /\ ((forall n, ~ In (Maps k n) es) -> get k (mapped st') = get k (mapped st)).
Proof.
  unfold compile. destruct (forallb _ acts); [|discriminate]. intros H Bd. injection H as <-. split; [split|].
  - intro H. assert (X : p v = true /\ Forall (fun a => exists e, fine ctx a e) acts).
    { revert st H Bd. induction acts as [|a acts IH]; intros st H Bd; cbn [List.map app eval_all eval] in H.
      - destruct (p v); [split; [reflexivity|constructor]|discriminate H].
      - destruct (run_action usual (name a) (code a) ctx st) as [o st1] eqn:R. destruct o as [|e]; [|discriminate H].
        destruct (IH st1 H) as [P F]; [intros a' c d arg I; apply Bd; right; exact I|]. split; [exact P|]. constructor; [|exact F]. apply (runs_fine ctx a st); [|rewrite R; reflexivity]. intros c d arg. apply Bd. left. reflexivity. }
    destruct X as [P F]. split; [exact P|]. intros a I. rewrite Forall_forall in F. apply F, I.
  - intros [P F]. assert (X : exists es, Forall2 (fine ctx) acts es).
    { clear -F. induction acts as [|a acts IH]; [exists []; constructor|]. destruct (F a (or_introl eq_refl)) as (e & E), IH as (es & Es); [intros b I; apply F; right; exact I|]. exists (e :: es). constructor; assumption. }
    destruct X as (es & Es). rewrite (acts_run ctx acts es p v st Es). exact P.
  - intros es Es. rewrite (acts_run ctx acts es p v st Es). cbn [snd]. split; [apply after_messages|]. intro k. apply after_mapped.
Qed.
Print Assumptions C95_condition_partial.

(* A schema is refused if and only if an action has no extension. *)
Theorem C95_refused {L : lib} acts p : compile usual acts p = None <->
  exists a, In a acts /\ ~ based (t "http://shex.io/extensions/Test/") (name a) /\ ~ based (t "http://shex.io/extensions/Map/") (name a).
Proof.
  unfold compile. destruct (forallb _ acts) eqn:F.
  - split; [discriminate|]. intros (a & I & T & M). rewrite forallb_forall in F. specialize (F a I). destruct (usual_cases (name a)) as [[_ B]|[[_ B]|E]]; [contradiction|contradiction|rewrite E in F; discriminate].
  - split; [|reflexivity]. intros _. assert (X : existsb (fun a => negb (match find_code usual (name a) with Some _ => true | None => false end)) acts = true).
    { clear p. induction acts as [|a acts IH]; cbn [forallb existsb] in F |- *; [discriminate|]. destruct (find_code usual (name a)); cbn [andb negb orb] in *; [apply IH, F|reflexivity]. }
    apply existsb_exists in X. destruct X as (a & I & E). exists a. split; [exact I|]. split; intro B; [rewrite (usual_test _ B) in E|rewrite (usual_map _ B) in E]; discriminate.
Qed.
Print Assumptions C95_refused.

(* Start actions: if one of them is not fine no node conforms; else every node is tried, and for each of them the messages are printed again. *)
Theorem C95_start_partial {L : lib} {atom : Type} (f : atom -> bool) start pending st : all_bound start_context start ->
  let r := validate (fun x st => (f x, st)) usual start pending st in
  ((exists a, In a start /\ forall e, ~ fine start_context a e) -> fst r = List.map (fun x => (x, false)) pending) /\
  (forall es, Forall2 (fine start_context) start es -> fst r = List.map (fun x => (x, f x)) pending /\
     printed (snd r) = printed st ++ List.concat (List.map (fun _ => messages es) pending)).
Proof.
  intro Bd.
  assert (Ok : forall es st, Forall2 (fine start_context) start es -> check_start_acts usual start st = (true, fold_left (fun st e => after e st) es st)).
  { clear. intros es st F. revert st. induction F as [|a e acts es H F IH]; intro st; cbn [check_start_acts fold_left]; [reflexivity|]. rewrite (fine_runs start_context a e st H). apply IH. }
  assert (No : forall st, (exists a, In a start /\ forall e, ~ fine start_context a e) -> fst (check_start_acts usual start st) = false).
  { clear -Bd. intros st (a & I & N). revert st. induction start as [|b acts IH]; [destruct I|]. intro st. cbn [check_start_acts]. destruct (run_action usual (name b) (code b) start_context st) as [o st1] eqn:R. destruct o as [|e]; [|reflexivity].
    destruct I as [->|I]; [|apply IH; [intros a' c d arg J; apply Bd; right; exact J|exact I]]. exfalso. destruct (runs_fine start_context a st) as (e & E); [intros c d arg; apply Bd; left; reflexivity|rewrite R; reflexivity|]. exact (N e E). }
  cbv zeta. split.
  - intro X. revert st. induction pending as [|x pending IH]; intro st; cbn [validate List.map]; [reflexivity|]. pose proof (No st X) as F. destruct (check_start_acts usual start st) as [b st1]. cbn [fst] in F. subst b.
    specialize (IH st1). destruct (validate (fun x st => (f x, st)) usual start pending st1) as [res st2]. cbn [fst] in *. rewrite IH. reflexivity.
  - intros es F. revert st. induction pending as [|x pending IH]; intro st; cbn [validate List.map List.concat].
    + split; [reflexivity|]. cbn [snd]. rewrite app_nil_r. reflexivity.
    + rewrite (Ok es st F). specialize (IH (fold_left (fun st e => after e st) es st)). destruct (validate (fun x st => (f x, st)) usual start pending _) as [res st2]. cbn [fst snd] in *. destruct IH as [-> ->].
      split; [reflexivity|]. rewrite after_messages, <- app_assoc. reflexivity.
Qed.
Print Assumptions C95_start_partial.

(* ------------------------------------------------------------------ *)
(* Examples                                                             *)

Definition says_hi : text := t " print ( " ++ [quote] ++ t "say " ++ [backslash; quote] ++ t "hi" ++ [backslash; backslash; backslash; quote; quote] ++ t " )".
Definition hi : text := t "say " ++ [quote] ++ t "hi" ++ [backslash; quote].
Lemma plain w : forallb (fun a => negb (Ascii.eqb a backslash) && negb (Ascii.eqb a quote)) w = true -> forall w' m', escaped w' m' -> escaped (w ++ w') (w ++ m').
Proof.
  intros F w' m' E. induction w as [|a w IH]; [exact E|]. cbn [forallb] in F. apply andb_true_iff in F. destruct F as [F1 F2]. apply andb_true_iff in F1. destruct F1 as [A B]. apply negb_true_iff, Ascii.eqb_neq in A, B. constructor; auto.
Qed.
Example C95_call_met : call says_hi Print (Message hi).
Proof.
  refine (Call_intro 1 1 1 1 0 Print _ _ (Wr_message (t "say " ++ backslash :: quote :: t "hi" ++ [backslash; backslash; backslash; quote]) hi _)).
  apply (plain (t "say ")); [reflexivity|]. apply Es_quote. apply (plain (t "hi")); [reflexivity|]. apply Es_backslash, Es_quote, Es_nil.
Qed.
#[local] Instance lib0 : lib := {| node := string; show_node := list_ascii_of_string; new_iri := fun w => Some w |}.
Definition ctx0 : context := {| c_s := Some "s1"%string; c_p := Some (t "p1"); c_o := Some "o1"%string |}.
Definition st0 : state := {| mapped := []; printed := [] |}.
Example C95_test_met : run_test (Some says_hi) ctx0 st0 = (Fine, {| mapped := []; printed := [hi] |}) /\ run_test (Some (t "fail(o)")) ctx0 st0 = (Wrong (Failed (t "o1")), st0) /\
  run_test (Some (t "fail(x)")) ctx0 st0 = (Wrong InvalidTest, st0) /\ run_test (Some (t "print(s) ;")) ctx0 st0 = (Wrong InvalidTest, st0) /\ run_test None ctx0 st0 = (Fine, st0) /\
  run_test (Some (t "print(p)")) ctx0 st0 = (Fine, {| mapped := []; printed := [t "p1"] |}) /\ run_test (Some (t "print(s)")) ctx0 st0 = (Fine, {| mapped := []; printed := [t "s1"] |}).
Proof. repeat split; vm_compute; reflexivity. Qed.
Definition print_s : act := {| name := t "http://shex.io/extensions/Test/#x"; code := Some (t "print(s)") |}.
Definition map_x : act := {| name := t "http://shex.io/extensions/Map/"; code := Some (t " <x> ") |}.
Example C95_condition_met : exists cs, compile usual [print_s; map_x; print_s] (String.eqb "o1") = Some cs /\
  eval_all (Some usual) cs "o1"%string ctx0 st0 = (true, {| mapped := [(t "x", "o1"%string)]; printed := [t "s1"; t "s1"] |}) /\
  fine ctx0 print_s (Prints (t "s1")) /\ fine ctx0 map_x (Maps (t "x") "o1"%string) /\ compile usual [{| name := t "http://shex.io/extensions/"; code := None |}] (String.eqb "o1") = None.
Proof.
  eexists. split; [reflexivity|]. split; [vm_compute; reflexivity|]. split; [|split; [|reflexivity]].
  - apply (Fine_print ctx0 print_s (t "print(s)") Subject); [right; exists (t "x"); reflexivity|reflexivity|exact (Call_intro 0 0 0 0 0 Print _ _ Wr_s)|]. apply (Says_s ctx0 "s1"%string). reflexivity.
  - apply (Fine_map ctx0 map_x (t " <x> ")); [left; reflexivity|reflexivity| |reflexivity]. exists [blank], (t "x"), [blank]. split; [intros a [<-|[]]; vm_compute; tauto|]. split; [intros a [<-|[]]; vm_compute; tauto|]. split; reflexivity.
Qed.
Example C95_start_met : validate (fun (x : nat) st => (Nat.even x, st)) usual [{| name := t "http://shex.io/extensions/Test/"; code := Some says_hi |}] [1; 2] st0 = ([(1, false); (2, true)], {| mapped := []; printed := [hi; hi] |}) /\
  fst (validate (fun (x : nat) st => (Nat.even x, st)) usual [map_x] [1; 2] st0) = [(1, false); (2, false)].
Proof. split; vm_compute; reflexivity. Qed.

(* ------------------------------------------------------------------ *)
(* What is lost                                                         *)

(* A particle without value is no error. *)
Theorem C95_unbound_refuted {L : lib} : exists c ctx arg, call c Print arg /\ (forall m, ~ says ctx arg m) /\
  forall st, run_test (Some c) ctx st = (Fine, {| mapped := mapped st; printed := printed st ++ [[]] |}).
Proof.
  exists (t "print(p)"), start_context, Predicate. split; [exact (Call_intro 0 0 0 0 0 Print _ _ Wr_p)|]. split; [intros m H; inversion H as [|? E|? E|? E]; discriminate E|]. intro st. vm_compute. reflexivity.
Qed.
Print Assumptions C95_unbound_refuted.

(* Actions run before the value is tested: the node of a value that does not match replaces that of one that does. *)
Theorem C95_before_refuted {L : lib} (x k : text) : new_iri x = Some k -> exists acts, forall (p : node -> bool) v w, p v = true -> p w = false ->
  exists cs, compile usual acts p = Some cs /\
    let context_of n := {| c_s := None; c_p := None; c_o := Some n |} in
    let (ok1, st1) := eval_all (Some usual) cs v (context_of v) {| mapped := []; printed := [] |} in
    let (ok2, st2) := eval_all (Some usual) cs w (context_of w) st1 in
    ok1 = true /\ ok2 = false /\ get k (mapped st1) = Some v /\ get k (mapped st2) = Some w.
Proof.
  intro N. exists [{| name := t "http://shex.io/extensions/Map/"; code := Some ("<"%char :: x ++ [">"%char]) |}]. intros p v w P Q. eexists. split; [reflexivity|].
  assert (Nm : names ("<"%char :: x ++ [">"%char]) k) by (exists [], x, []; repeat split; try (intros ? []); exact N). cbv zeta.
  set (a := {| name := t "http://shex.io/extensions/Map/"; code := Some ("<"%char :: x ++ [">"%char]) |}).
  assert (F : forall n, Forall2 (fine {| c_s := None; c_p := None; c_o := Some n |}) [a] [Maps k n]).
  { intro n. constructor; [|constructor]. apply (Fine_map _ a ("<"%char :: x ++ [">"%char])); [left; reflexivity|reflexivity|exact Nm|reflexivity]. }
  change [SemAct a; Check p] with (List.map SemAct [a] ++ [Check p]). change (Datatypes.app (List.map SemAct [a]) [Check p]) with (List.map SemAct [a] ++ [Check p]).
  rewrite (acts_run _ [a] [Maps k v] p v _ (F v)). rewrite (acts_run _ [a] [Maps k w] p w _ (F w)). cbn [fold_left after mapped put get]. rewrite text_eqb_refl. cbn [mapped get put]. rewrite !text_eqb_refl. auto.
Qed.
Print Assumptions C95_before_refuted.

(* Where the engine gives no registry (engine.rs:1156, 770, 1343), a constraint with an action never matches. *)
Theorem C95_registry_refuted {L : lib} : exists acts, (forall ctx a, In a acts -> exists e, fine ctx a e) /\ forall (p : node -> bool) v ctx st, exists cs, compile usual acts p = Some cs /\
  fst (eval_all (Some usual) cs v ctx st) = p v /\ fst (eval_all None cs v ctx st) = false.
Proof.
  exists [{| name := t "http://shex.io/extensions/Test/"; code := None |}]. split.
  - intros ctx a [<-|[]]. exists Nothing. constructor; [left|]; reflexivity.
  - intros p v ctx st. eexists. split; [reflexivity|]. split; [|reflexivity]. cbn. destruct (p v); reflexivity.
Qed.
Print Assumptions C95_registry_refuted.
