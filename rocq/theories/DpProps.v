(* C104: default prefixes. *)
From Coq Require Import List String Ascii Bool Arith.
Import ListNotations.
From Verif Require Import DpModel DpSpec DpLemmas.
Open Scope list_scope.

Section lib.
Context {L : lib}.
Definition unique (m : option prefixes) : Prop := match m with Some p => NoDup (List.map fst p) | None => True end.
Lemma step_unique m o : unique m -> unique (fst (step m o)).
Proof.
  destruct o as [a i|a b|a|a b]; cbn [step].
  - destruct (iri_ok i); [|tauto]. destruct m as [p|]; intros U; cbn [fst unique]; apply add_nodup; [exact U|constructor].
  - destruct m as [p|]; [|tauto]. destruct (find p a); [|tauto]. intros U. now apply add_nodup.
  - destruct m as [p|]; [|tauto]. destruct (find p a); [|tauto]. intros U. now apply remove_nodup.
  - destruct m as [p|]; [|tauto]. destruct (find p a); [|tauto]. intros U. now apply add_nodup, remove_nodup.
Qed.
Lemma step_env m o e : unique m -> (forall a, env_of m a = e a) -> forall a, env_of (fst (step m o)) a = after_op e o a.
Proof.
  intros U H x. destruct o as [a i|a b|a|a b]; cbn [step after_op].
  - destruct (iri_ok i); [|apply H]. cbn [fst env_of]. rewrite find_add. unfold set. destruct (text_dec x a); [reflexivity|]. rewrite <- H. now destruct m.
  - rewrite <- H. destruct m as [p|]; cbn [env_of] in *; [|apply H]. destruct (find p a) as [i|]; [|apply H]. cbn [fst env_of]. rewrite find_add. unfold set.
    destruct (text_dec x b); [reflexivity|apply H].
  - unfold set. destruct m as [p|]; cbn [env_of] in *; [|cbn [fst env_of]; rewrite <- H; now destruct (text_dec x a)]. destruct (find p a) as [i|] eqn:E; cbn [fst env_of].
    + rewrite (find_remove p a x U). destruct (text_dec x a); [reflexivity|apply H].
    + destruct (text_dec x a) as [->|]; [exact E|apply H].
  - rewrite <- H. destruct m as [p|]; cbn [env_of] in *; [|apply H]. destruct (find p a) as [i|]; [|apply H]. cbn [fst env_of]. rewrite find_add, (find_remove p a x U). unfold set.
    destruct (text_dec x b); [reflexivity|]. destruct (text_dec x a); [reflexivity|apply H].
Qed.
Lemma run_env l : forall m e, unique m -> (forall a, env_of m a = e a) -> unique (run m l) /\ forall a, env_of (run m l) a = fold_left after_op l e a.
Proof.
  induction l as [|o l IH]; intros m e U H; [now split|]. cbn [fold_left]. change (run m (o :: l)) with (run (fst (step m o)) l). apply IH; [now apply step_unique|now apply step_env].
Qed.

(* C104.  The full statement: the default prefixes of a session are what its commands make them, and a source is read as if it began with a declaration of each default prefix
   that it does not declare itself: names it declares mean what it says, and other names mean what the defaults say.
   The commands do what they should. *)
Theorem C104_commands l : unique (run None l) /\ forall a, env_of (run None l) a = fold_left after_op l (fun _ => None) a.
Proof. apply run_env; [exact Logic.I|reflexivity]. Qed.
Theorem C104_failures m o : (snd (step m o) = false -> fst (step m o) = m) /\
  (snd (step m o) = true <-> match o with Add _ i => iri_ok i = true | Copy a _ | Remove a | Rename a _ => exists i, env_of m a = Some i end).
Proof.
  destruct o as [a i|a b|a|a b]; cbn [step].
  - destruct (iri_ok i); cbn; (split; [|tauto]); [discriminate|reflexivity].
  - destruct m as [p|]; cbn [env_of]; [destruct (find p a) as [i|] eqn:E|]; cbn; (split; [try discriminate; reflexivity|]); (split; [try discriminate; eauto|intros [j X]; try discriminate X; reflexivity]).
  - destruct m as [p|]; cbn [env_of]; [destruct (find p a) as [i|] eqn:E|]; cbn; (split; [try discriminate; reflexivity|]); (split; [try discriminate; eauto|intros [j X]; try discriminate X; reflexivity]).
  - destruct m as [p|]; cbn [env_of]; [destruct (find p a) as [i|] eqn:E|]; cbn; (split; [try discriminate; reflexivity|]); (split; [try discriminate; eauto|intros [j X]; try discriminate X; reflexivity]).
Qed.
End lib.

Definition item_of (d : directive) (x : text * text) : item :=
  Decl [] (word d) (chars " ") (fst x) [] (chars " ") (snd x) (match d with AtPrefix => chars " ." | Prefix => [] end).
Lemma show_item d a i : show (item_of d (a, i)) ++ [nl] = line d a i.
Proof.
  destruct d; cbn [item_of show line fst snd word chars list_ascii_of_string app]; repeat (rewrite <- ?app_assoc; cbn [app]); reflexivity.
Qed.
Lemma item_ok d x : alias_ok (fst x) -> iri_text (snd x) -> ok d (item_of d x).
Proof.
  intros A I. assert (B0 : blank []) by (split; [apply Forall_nil|intros []]).
  assert (B : blank (chars " ")) by (split; [apply Forall_cons; [reflexivity|apply Forall_nil]|intros [X|[]]; discriminate]).
  cbn [ok item_of]. split; [exact B0|]. split; [destruct d; reflexivity|]. split; [exact B|]. split; [discriminate|]. split; [exact A|]. split; [exact B0|]. split; [exact B|].
  split; [exact I|]. intros H. destruct d; vm_compute in H; intuition discriminate.
Qed.
Lemma lines_cons x l : l <> [] -> lines (x :: l) = show x ++ nl :: lines l.
Proof. destruct l; [congruence|reflexivity]. Qed.
Lemma lines_items d q l : l <> [] -> List.concat (List.map (fun x => line d (fst x) (snd x)) q) ++ lines l = lines (List.map (item_of d) q ++ l).
Proof.
  intros N. induction q as [|[a i] q IH]; [reflexivity|]. cbn [List.map List.concat fst snd app]. rewrite lines_cons by (destruct q; [exact N|discriminate]).
  rewrite <- IH, <- show_item, <- !app_assoc. reflexivity.
Qed.
Lemma means_app h a o' : means h a o' -> forall b o, means b a o -> means (h ++ b) a (match o with Some i => Some i | None => o' end).
Proof.
  intros H b o M. induction M as [a|l x a i D|l x a o D M IH]; [now rewrite app_nil_r| |]; rewrite app_assoc; [now constructor|]. apply M_more; [exact D|now apply IH].
Qed.
Lemma find_app q r a : find (q ++ r) a = match find q a with Some i => Some i | None => find r a end.
Proof. induction q as [|[b i] q IH]; [reflexivity|]. cbn [app find]. now destruct (text_dec a b). Qed.
Lemma means_items d q a : NoDup (List.map fst q) -> means (List.map (item_of d) q) a (find q a).
Proof.
  induction q as [|[b i] q IH] using rev_ind; [constructor|]. intros N. rewrite map_app in N |- *. cbn [List.map fst] in N |- *.
  assert (N' : NoDup (List.map fst q) /\ ~ In b (List.map fst q)).
  { apply NoDup_remove in N. rewrite app_nil_r in N. exact N. }
  destruct N' as [N1 N2]. rewrite find_app. cbn [find]. destruct (text_dec a b) as [->|X].
  - apply find_none in N2. rewrite N2. apply M_here. cbn. now split.
  - replace (match find q a with Some i0 => Some i0 | None => None end) with (find q a) by (now destruct (find q a)).
    apply M_more; [|now apply IH]. intros j [E _]. now elim X.
Qed.
Lemma find_filter f p a : find (filter f p) a = None \/ exists i, In (a, i) p /\ f (a, i) = true.
Proof.
  induction p as [|[b i] p IH]; [now left|]. cbn [filter]. destruct (f (b, i)) eqn:E.
  - cbn [find]. destruct (text_dec a b) as [->|N]; [right; exists i; split; [now left|exact E]|]. destruct IH as [IH|(j & J & F)]; [now left|right; exists j; split; [now right|exact F]].
  - destruct IH as [IH|(j & J & F)]; [now left|right; exists j; split; [now right|exact F]].
Qed.
Lemma nodup_filter f (p : prefixes) : NoDup (List.map fst p) -> NoDup (List.map fst (filter f p)).
Proof.
  induction p as [|[b i] p IH]; [now constructor|]. cbn [List.map fst]. intros N. inversion N as [|? ? X N']; subst. cbn [filter]. destruct (f (b, i)); [|now apply IH].
  cbn [List.map fst]. constructor; [|now apply IH]. intros H. apply X. apply in_map_iff in H as (y & E & H). apply filter_In in H as [H _]. apply in_map_iff. now exists y.
Qed.

(* Sources where each declaration begins its line and no other line begins with the word of a declaration: the header is a list of declarations, names declared by the source mean
   what they mean without it, and other names mean what the defaults say, at each place of the source. *)
Theorem C104_header_partial d p l : NoDup (List.map fst p) -> Forall (fun x => alias_ok (fst x) /\ iri_text (snd x)) p -> l <> [] -> Forall (ok d) l ->
  exists h, with_header (Some p) (lines l) d = lines (h ++ l) /\ Forall (ok d) h /\
    (forall a, declared_in h a <-> In a (List.map fst p) /\ ~ declared_in l a) /\
    forall before rest a, l = before ++ rest ->
      (forall i, means before a (Some i) -> means (h ++ before) a (Some i)) /\
      (means before a None -> declared_in l a -> means (h ++ before) a None) /\
      (~ declared_in l a -> means (h ++ before) a (find p a)).
Proof.
  intros N P NE O. set (f := fun x : text * text => if in_dec text_dec (fst x) (declared d (lines l)) then false else true).
  exists (List.map (item_of d) (filter f p)). split; [|split; [|split]].
  - unfold with_header, header. rewrite <- (lines_items d _ _ NE). f_equal. clear N P. induction p as [|x p IH]; [reflexivity|]. cbn [List.map List.concat filter].
    unfold f at 1. destruct (in_dec text_dec (fst x) (declared d (lines l))); [exact IH|]. cbn [List.map List.concat]. now f_equal.
  - apply Forall_forall. intros y H. apply in_map_iff in H as (x & <- & H). apply filter_In in H as [H _]. rewrite Forall_forall in P. destruct (P x H). now apply item_ok.
  - intros a. rewrite <- (declared_spec d l a O). split.
    + intros (x & i & H & D). apply in_map_iff in H as ([b j] & <- & H). apply filter_In in H as [H F]. destruct D as [-> ->]. cbn [fst] in *. split; [apply in_map_iff; now exists (b, j)|].
      unfold f in F. cbn [fst] in F. now destruct (in_dec text_dec b (declared d (lines l))).
    + intros [H D]. apply in_map_iff in H as ([b j] & <- & H). exists (item_of d (b, j)), j. split; [|now split]. apply in_map. apply filter_In. split; [exact H|].
      unfold f. cbn [fst] in *. now destruct (in_dec text_dec b (declared d (lines l))).
  - intros before rest a ->. pose proof (means_items d (filter f p) a (nodup_filter f p N)) as M. split; [|split].
    + intros i B. exact (means_app _ _ _ M _ _ B).
    + intros B D. pose proof (means_app _ _ _ M _ _ B) as X. cbn in X. destruct (find_filter f p a) as [E|(i & _ & F)]; [now rewrite E in X|].
      apply (declared_spec d _ a O) in D. unfold f in F. cbn [fst] in F. now destruct (in_dec text_dec a (declared d (lines (before ++ rest)))).
    + intros D. assert (B : means before a None).
      { assert (D' : ~ declared_in before a) by (intros (x & i & X & Y); apply D; exists x, i; split; [apply in_or_app; now left|exact Y]). clear -D'.
        induction before as [|x b IH] using rev_ind; [constructor|]. apply M_more; [intros i Y; apply D'; exists x, i; split; [apply in_or_app; right; now left|exact Y]|].
        apply IH. intros (y & i & X & Y). apply D'. exists y, i. split; [apply in_or_app; now left|exact Y]. }
      pose proof (means_app _ _ _ M _ _ B) as X. cbn in X. replace (find p a) with (find (filter f p) a); [exact X|].
      assert (F : forall i, f (a, i) = true). { intros i. unfold f. cbn [fst]. destruct (in_dec text_dec a (declared d (lines (before ++ rest)))) as [Y|]; [|reflexivity]. apply (declared_spec d _ a O) in Y. contradiction. }
      clear -F. induction p as [|[b i] p IH]; [reflexivity|]. cbn [filter]. destruct (text_dec a b) as [->|Z].
      * rewrite F. cbn [find]. now destruct (text_dec b b).
      * destruct (f (b, i)); cbn [find]; (destruct (text_dec a b); [contradiction|]); exact IH.
Qed.
Print Assumptions C104_commands.
Print Assumptions C104_failures.
Print Assumptions C104_header_partial.

#[local] Instance trusting : lib := { iri_ok := fun _ => true }.
Definition defaults : prefixes := [(chars "ex", chars "http://e/"); (chars "rdf", chars "http://r#")].
Definition source : list item :=
  [Line []; Decl (chars "  ") (chars "@prefix") (chars " ") (chars "ex") (chars " ") (chars " ") (chars "http://mine/") (chars " ."); Line (chars "ex:a a rdf:Bag .")].
Example C104_met : NoDup (List.map fst defaults) /\ Forall (fun x => alias_ok (fst x) /\ iri_text (snd x)) defaults /\ source <> [] /\ Forall (ok AtPrefix) source /\
  header (Some defaults) (lines source) AtPrefix = chars "@prefix rdf: <http://r#> ." ++ [nl] /\
  run None [Add (chars "a") (chars "x"); Add (chars "b") (chars "y"); Rename (chars "a") (chars "b"); Copy (chars "b") (chars "c"); Remove (chars "b")] = Some [(chars "c", chars "x")].
Proof.
  split; [repeat constructor; cbn; intuition discriminate|]. split; [repeat constructor; discriminate|]. split; [discriminate|]. split.
  { constructor; [|constructor; [|constructor; [|constructor]]].
    - split; [intros []|]. intros w k r _ E X. cbn [spelled] in E. subst k. destruct w; discriminate.
    - cbn [ok]. unfold blank. repeat split; try (repeat constructor; fail); try (repeat constructor; discriminate); try (intros H; vm_compute in H; intuition discriminate).
    - split; [intros H; vm_compute in H; intuition discriminate|]. intros w k r W E X. cbn [spelled] in E. subst k. destruct W as [|c w C W]; [discriminate|]. injection X as <- _. discriminate. }
  split; vm_compute; reflexivity.
Qed.

(* False: names that the source does not declare mean what the defaults say. A line within a long string is taken for a declaration. *)
Definition quotes : text := ["""";"""";""""]%char.
Definition stringy : text := chars "ex:s ex:p " ++ quotes ++ [nl] ++ chars "@prefix ex: <x> ." ++ [nl] ++ quotes ++ chars " .".
Theorem C104_string_refuted : exists p s, ~ occurs (chars "@prefix") (outside false s) /\ In (chars "ex") (List.map fst p) /\ header (Some p) s AtPrefix = [].
Proof.
  exists [(chars "ex", chars "http://e/")], stringy. split; [|split; [now left|vm_compute; reflexivity]]. intros (u & v & E). vm_compute in E.
  repeat (destruct u as [|? u]; [discriminate E|cbn [app] in E; try discriminate E; injection E as _ E]).
Qed.
(* False: the header is a list of declarations. Aliases are not checked, and one with a space spoils every source. *)
Theorem C104_alias_refuted : exists a i p, step None (Add a i) = (Some p, true) /\ forall l, Forall (ok AtPrefix) l -> header (Some p) [] AtPrefix <> lines l.
Proof.
  exists (chars "a b"), (chars "x"). eexists. split; [reflexivity|]. intros l O E. pose proof (declared_lines AtPrefix l O) as X. rewrite <- E in X. vm_compute in X.
  destruct O as [|x r O F]; [discriminate|]. destruct x as [? ? ? b ? ? ? ?|t]; [cbn in X; discriminate|]. destruct O as [T O].
  assert (Y : exists u, t = chars "@prefix" ++ u).
  { clear O X F. assert (Z : exists u, header (Some [(chars "a b", chars "x")]) [] AtPrefix = t ++ u /\ (u = [] \/ hd " "%char u = nl)).
    { destruct r; [exists []; split; [rewrite app_nil_r; exact E|now left]|]. cbn [lines show] in E. eexists. split; [exact E|now right]. }
    destruct Z as (u & Z & U). vm_compute in Z. clear E.
    do 7 (destruct t as [|? t]; [cbn [app] in Z; rewrite <- Z in U; destruct U as [U|U]; vm_compute in U; discriminate U|injection Z as <- Z]). now exists t. }
  destruct Y as [u ->]. now apply (O [] (chars "@prefix") u); [constructor| |].
Qed.
(* False: names that the source declares are not declared in front of it. Only the first declaration of a line is seen (the later one of the source still counts). *)
Theorem C104_one_line_refuted : exists p s a i, occurs (chars "PREFIX " ++ a ++ chars ": <") (outside false s) /\ header (Some p) s Prefix = line Prefix a i.
Proof.
  exists [(chars "b", chars "http://e/")], (chars "PREFIX a: <x> PREFIX b: <y> ASK {}"), (chars "b"), (chars "http://e/"). split; [|vm_compute; reflexivity].
  exists (chars "PREFIX a: <x> "), (chars "y> ASK {}"). reflexivity.
Qed.
(* False: what is between the declarations of Turtle can be written either way. Declarations with the word of SPARQL are not seen in Turtle (again the later one counts). *)
Theorem C104_turtle_refuted : exists p s a i, occurs (chars "PREFIX " ++ a ++ chars ": <") (outside false s) /\ header (Some p) s AtPrefix = line AtPrefix a i.
Proof.
  exists [(chars "b", chars "http://e/")], (chars "PREFIX b: <y>"), (chars "b"), (chars "http://e/"). split; [|vm_compute; reflexivity]. exists [], (chars "y>"). reflexivity.
Qed.
Print Assumptions C104_string_refuted.
Print Assumptions C104_alias_refuted.
Print Assumptions C104_one_line_refuted.
Print Assumptions C104_turtle_refuted.
