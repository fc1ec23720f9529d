(* C110: a server is started with the settings that are given, and when it ends no more is deleted than
   it made. *)
From Coq Require Import List String Ascii Bool Arith Lia DecimalString.
From Verif Require Import QiModel QiSpec QiLemmas QvModel QvSpec.
Import ListNotations.
Open Scope list_scope.

Definition is_in (f : text) (l : list text) : bool := if in_dec text_dec f l then true else false.
Definition same (f g : text) : bool := if text_dec f g then true else false.

Lemma skip_flag o F {A} (show : A -> text) x l : is_in (chars F) valued = true -> same o (chars F) = false ->
  value_of o (option_flag F show x ++ l) = value_of o l.
Proof.
  unfold is_in, same. destruct x as [v|]; [|reflexivity]. cbn [option_flag app value_of].
  destruct (in_dec text_dec (chars F) valued); [|discriminate]. now destruct (text_dec o (chars F)).
Qed.
Lemma hit_flag F {A} (show : A -> text) x l : is_in (chars F) valued = true ->
  value_of (chars F) (option_flag F show x ++ l) = match x with Some v => Some (Some (show v)) | None => value_of (chars F) l end.
Proof.
  unfold is_in. destruct x as [v|]; [|reflexivity]. cbn [option_flag app value_of].
  destruct (in_dec text_dec (chars F) valued); [|discriminate]. now destruct (text_dec (chars F) (chars F)).
Qed.
Lemma skip_switch o F b l : is_in (chars F) valued = false -> same o (chars F) = false ->
  value_of o (switch F b ++ l) = value_of o l.
Proof.
  unfold is_in, same. destruct b; [|reflexivity]. cbn [switch app value_of].
  destruct (in_dec text_dec (chars F) valued); [discriminate|]. now destruct (text_dec o (chars F)).
Qed.
Lemma hit_switch F b l : is_in (chars F) valued = false ->
  value_of (chars F) (switch F b ++ l) = if b then Some None else value_of (chars F) l.
Proof.
  unfold is_in. destruct b; [|reflexivity]. cbn [switch app value_of].
  destruct (in_dec text_dec (chars F) valued); [discriminate|]. now destruct (text_dec (chars F) (chars F)).
Qed.
Lemma skip_two o f v l : is_in f valued = true -> same o f = false -> value_of o (f :: v :: l) = value_of o l.
Proof.
  unfold is_in, same. cbn [value_of]. destruct (in_dec text_dec f valued); [|discriminate]. now destruct (text_dec o f).
Qed.
Lemma hit_two f v l : is_in f valued = true -> value_of f (f :: v :: l) = Some (Some v).
Proof. unfold is_in. cbn [value_of]. destruct (in_dec text_dec f valued); [|discriminate]. now destruct (text_dec f f). Qed.
Lemma skip_last o f v (b : bool) : is_in f valued = true -> same o f = false -> value_of o (if b then [f; v] else []) = None.
Proof. intros I S. destruct b; [|reflexivity]. now rewrite skip_two. Qed.

Ltac skips := repeat first [rewrite skip_two by reflexivity | rewrite skip_flag by reflexivity | rewrite skip_switch by reflexivity].
Ltac seek := unfold read_text, read_number, read_switch; cbn [app]; skips;
  first [rewrite hit_two by reflexivity; reflexivity
        | rewrite hit_flag by reflexivity; match goal with |- context [match ?x with Some _ => _ | None => _ end] => destruct x; [reflexivity|] end; skips; apply skip_last; reflexivity
        | rewrite hit_switch by reflexivity; match goal with |- context [if ?b then _ else _] => destruct b; [reflexivity|] end; skips; apply skip_last; reflexivity].

(* The arguments of the server say what the settings say: each option has its value, and no more. *)
Theorem C110_settings : forall cmd name s, exists l, server_argv cmd name s = cmd :: l /\
  read_text "-i" l (Some name) /\ read_number "-p" l (Some (port s)) /\ read_text "-a" l (token s) /\
  read_number "-j" l (queries s) /\ read_text "-m" l (memory_max s) /\ read_text "-c" l (cache_max s) /\
  read_text "-e" l (cache_single s) /\ read_text "-E" l (lazy_max s) /\ read_number "-k" l (cache_entries s) /\
  read_switch "-P" l (no_patterns s) /\ read_switch "-T" l (no_trick s) /\ read_switch "-t" l (with_text s) /\
  read_switch "-o" l (only_pso s) /\ read_text "-s" l (timeout s) /\ read_number "-S" l (rows s) /\
  read_text "--throw-on-unbound-variables" l (if throw s then Some (chars "true") else None).
Proof.
  intros cmd name s. eexists. split; [reflexivity|].
  repeat (split; [seek|]). unfold read_text. cbn [app]. skips. destruct (throw s); [|reflexivity]. apply hit_two. reflexivity.
Qed.
Print Assumptions C110_settings.

Lemma print_full n : print n <> [].
Proof.
  unfold print, chars. destruct (Nat.to_uint n) as [| | | | | | | | | |] eqn:E; discriminate.
Qed.
Lemma flag_full F {A} (show : A -> text) x : chars F <> [] -> (forall v, x = Some v -> show v <> []) ->
  Forall (fun a => a <> []) (option_flag F show x).
Proof. intros N H. destruct x as [v|]; cbn; [|constructor]. constructor; [exact N|]. constructor; [now apply H|constructor]. Qed.

(* The shell in the container reads these arguments, when no text among them is empty. *)
Theorem C110_shell_partial : forall cmd name s, cmd <> [] -> name <> [] -> filled s ->
  words Outside (server_cmd cmd name s) = Some (server_argv cmd name s).
Proof.
  intros cmd name s C N F. apply join_words. unfold server_argv. unfold filled in F. cbn [In] in F.
  repeat rewrite Forall_app. repeat split;
    try (apply flag_full; [discriminate|]; intros v E; first [apply print_full | apply F; rewrite <- E; tauto]);
    try (unfold switch; match goal with |- Forall _ (if ?b then _ else _) => destruct b end; repeat constructor; discriminate).
  repeat constructor; try discriminate; try assumption. apply print_full.
Qed.
Print Assumptions C110_shell_partial.

(* With an empty token the next option is taken for the token. *)
Definition plain_settings : settings :=
  {| port := 7; token := None; queries := None; memory_max := Some (chars "5G"); cache_max := None; cache_single := None; lazy_max := None;
     cache_entries := None; no_patterns := false; no_trick := false; with_text := false; only_pso := false; timeout := None; rows := None; throw := true |}.
Theorem C110_shell_refuted : exists cmd name s l, token s = Some [] /\ words Outside (server_cmd cmd name s) = Some (cmd :: l) /\
  value_of (chars "-a") l = Some (Some (chars "-m")) /\ value_of (chars "-m") l = None.
Proof.
  exists (chars "ServerMain"), (chars "default"),
    {| port := 7; token := Some []; queries := None; memory_max := Some (chars "5G"); cache_max := None; cache_single := None; lazy_max := None;
     cache_entries := None; no_patterns := false; no_trick := false; with_text := false; only_pso := false; timeout := None; rows := None; throw := false |}.
  eexists. split; [reflexivity|]. split; [vm_compute; reflexivity|]. split; vm_compute; reflexivity.
Qed.
Print Assumptions C110_shell_refuted.

Lemma in_dir_within d p : in_dir d p = true <-> within d p.
Proof.
  unfold in_dir, within. revert p. induction d as [|c d IH]; intros p; cbn [app prefix_of].
  - destruct p as [|x p]; [split; [discriminate|intros (r & [=])]|]. rewrite andb_true_iff, Ascii.eqb_eq. split.
    + intros [<- _]. now exists p.
    + intros (r & [= -> _]). split; [reflexivity|]. now destruct p.
  - destruct p as [|x p]; [split; [discriminate|intros (r & [=])]|]. rewrite andb_true_iff, Ascii.eqb_eq, IH. split.
    + intros [<- (r & ->)]. now exists r.
    + intros (r & [= -> ->]). split; [reflexivity|]. now exists r.
Qed.
Lemma in_dir_false d p : ~ within d p -> in_dir d p = false.
Proof. intros N. destruct (in_dir d p) eqn:E; [|reflexivity]. elim N. now apply in_dir_within. Qed.

Section Statements.
Context {L : lib}.

Lemma inputs_index cdir l : forall w, index (fst (inputs_of w cdir l)) = index w.
Proof.
  induction l as [|s l IH]; intros w; [reflexivity|]. cbn [inputs_of]. destruct (input_of w cdir s) as [w1 i] eqn:E.
  assert (I : index w1 = index w).
  { unfold input_of in E. destruct (files w (spath s)); [|now injection E as <- _]. destruct (skind s); [|now injection E as <- _].
    destruct (native r); [now injection E as <- _|]. destruct (to_native r t); now injection E as <- _. }
  destruct i as [i|]; [|exact I]. specialize (IH w1). destruct (inputs_of w1 cdir l). cbn in *. congruence.
Qed.

Lemma build_facts w is cfg w' d : build_index w is cfg = (w', Some d) ->
  d = resolve cfg (stream is) /\ files w' = files w /\ index w' (d, index_name cfg) <> None /\
  (forall k, k <> (d, index_name cfg) -> index w' k = index w k) /\
  (forall x, index w (d, index_name cfg) = Some x -> w' = w).
Proof.
  unfold build_index. destruct is as [|i is]; [discriminate|]. remember (i :: is) as l eqn:El.
  destruct (index w (resolve cfg (stream l), index_name cfg)) eqn:X.
  - intros [= <- <-]. repeat split; try congruence.
  - destruct (1 <? _); [discriminate|]. destruct (negb _); [discriminate|]. destruct (feeds w l) as [r|]; [|discriminate].
    destruct (accepts _); [|discriminate]. destruct (forallb snd r); [|discriminate]. intros [= <- <-]. cbn [files index put_index].
    split; [reflexivity|]. split; [reflexivity|]. split; [destruct (key_dec _ _); congruence|]. split.
    + intros k N. now destruct (key_dec k _).
    + intros x E. congruence.
Qed.

(* A server has an index to serve, and knows whether this call made it. *)
Theorem C110_created : forall w l cfg auto answers w' s, serve_paths w l cfg auto answers = (w', Some s) ->
  index w' (dir s, index_name cfg) <> None /\ auto_delete s = auto /\
  (created s = true <-> index w (dir s, index_name cfg) = None).
Proof.
  intros w l cfg auto answers w' s. unfold serve_paths. destruct l as [|x l]; [discriminate|].
  pose proof (inputs_index (convert_dir cfg (x :: l)) (x :: l) w) as I.
  destruct (inputs_of w (convert_dir cfg (x :: l)) (x :: l)) as [w1 [is|]]; [|discriminate]. cbn [fst] in I.
  destruct (build_index w1 is cfg) as [w2 [d|]] eqn:B; [|discriminate]. destruct (build_facts _ _ _ _ _ B) as (D & _ & N & _ & _).
  unfold start. destruct answers; [|discriminate]. intros [= <- <-]. cbn. split; [exact N|]. split; [reflexivity|].
  unfold built. rewrite <- D, I. destruct (index w (d, index_name cfg)); cbn; intuition congruence.
Qed.

(* Ending a server changes nothing unless asked for; an index that was there before stays. *)
Theorem C110_kept : forall w l cfg auto answers w' s, serve_paths w l cfg auto answers = (w', Some s) ->
  auto = false \/ index w (dir s, index_name cfg) <> None -> drop w' s = w'.
Proof.
  intros w l cfg auto answers w' s E H. destruct (C110_created _ _ _ _ _ _ _ E) as (_ & A & C). unfold drop. rewrite A.
  destruct H as [->|H]; [reflexivity|]. destruct (created s); [|now rewrite andb_false_r]. elim H. now apply C.
Qed.

(* One that is opened is never deleted. *)
Theorem C110_opened : forall w d n auto answers s, open_index w d n auto answers = Some s ->
  index w (d, n) <> None /\ dir s = d /\ forall w', drop w' s = w'.
Proof.
  intros w d n auto answers s. unfold open_index, built, start. destruct (index w (d, n)); [|discriminate]. destruct answers; [|discriminate].
  intros [= <-]. split; [discriminate|]. split; [reflexivity|]. intros w'. unfold drop. cbn. now rewrite andb_false_r.
Qed.

(* When deleting is asked for, an index that this call made is gone at the end; files and indexes that are
   not in its folder stay.  The full statement: all other files and indexes stay. *)
Theorem C110_deleted_partial : forall w l cfg answers w' s, serve_paths w l cfg true answers = (w', Some s) ->
  index w (dir s, index_name cfg) = None ->
  let w'' := drop w' s in
  index w'' (dir s, index_name cfg) = None /\
  (forall p, ~ within (dir s) p -> files w'' p = files w' p) /\
  (forall e n, e <> dir s -> ~ within (dir s) e -> index w'' (e, n) = index w (e, n)).
Proof.
  intros w l cfg answers w' s E N. destruct (C110_created _ _ _ _ _ _ _ E) as (_ & A & C). apply C in N.
  unfold drop. rewrite A, N. cbn [andb remove_dir files index fst]. split; [|split].
  - assert (X : in_dir (dir s) (dir s ++ [slash]) = true); [|now rewrite X]. apply in_dir_within. now exists [].
  - intros p P. now rewrite (in_dir_false _ _ P).
  - intros e n Ne P. rewrite in_dir_false.
    + unfold serve_paths in E. destruct l as [|x l]; [discriminate|].
      pose proof (inputs_index (convert_dir cfg (x :: l)) (x :: l) w) as I.
      destruct (inputs_of w (convert_dir cfg (x :: l)) (x :: l)) as [w1 [is|]]; [|discriminate]. cbn [fst] in I.
      destruct (build_index w1 is cfg) as [w2 [d|]] eqn:B; [|discriminate]. destruct (build_facts _ _ _ _ _ B) as (_ & _ & _ & O & _).
      unfold start in E. destruct answers; [|discriminate]. injection E as <- <-. cbn in Ne. rewrite O, I by congruence. reflexivity.
    + intros (r & H). destruct (exists_last (l := slash :: r)) as (q & c & Q); [discriminate|]. rewrite Q, app_assoc in H.
      apply app_inj_tail in H as [He _]. destruct q as [|y q].
      * rewrite app_nil_r in He. congruence.
      * injection Q as Hy _. apply P. exists q. now rewrite He, Hy.
Qed.

(* No call, whether it fails or not, loses an index that is there. *)
Theorem C110_indexes : forall w l cfg auto answers w' r, serve_paths w l cfg auto answers = (w', r) ->
  forall k x, index w k = Some x -> index w' k = Some x.
Proof.
  intros w l cfg auto answers w' r E k x K. unfold serve_paths in E. destruct l as [|y l]; [now injection E as <- _|].
  pose proof (inputs_index (convert_dir cfg (y :: l)) (y :: l) w) as I.
  destruct (inputs_of w (convert_dir cfg (y :: l)) (y :: l)) as [w1 [is|]]; cbn [fst] in I; [|injection E as <- _; now rewrite I].
  rewrite <- I in K. assert (X : index (fst (build_index w1 is cfg)) k = Some x).
  { unfold build_index. destruct is as [|i is]; [exact K|]. remember (i :: is) as m eqn:El.
    destruct (index w1 (resolve cfg (stream m), index_name cfg)) eqn:X; [exact K|].
    destruct (1 <? _); [exact K|]. destruct (negb (forallb found m)); [exact K|]. destruct (feeds w1 m); [|exact K]. destruct (accepts _); [|exact K].
    cbn [fst put_index index]. destruct (key_dec k _) as [->|]; [congruence|exact K]. }
  destruct (build_index w1 is cfg) as [w2 [d|]]; injection E as <- _; exact X.
Qed.
(* C109: an index that is made new from a text holds what the text says. *)
Theorem C109_reader_partial : forall w tmp t r cfg w' d, from_reader w tmp t r cfg = (w', Some d) ->
  index w (d, index_name cfg) = None ->
  exists u f, to_native r t = Some u /\ index w' (d, index_name cfg) = Some [(f, None, u)] /\
    (f = NQuads <-> In r [RNQuads; RTriG; RJsonLd]) /\ (f = NTriples <-> In r [RTurtle; RNTriples; RRdfXml; RN3]).
Proof.
  intros w tmp t r cfg w' d. unfold from_reader. destruct (to_native r t) as [u|]; [|discriminate].
  set (d' := resolve cfg _). set (n := chars "input." ++ cli_arg (target r)). unfold build_index. cbn [resolve index_dir index_name index put_file].
  destruct (index w (d', index_name cfg)) eqn:X; [intros [= <- <-] N; congruence|]. cbn [filter is_packed packed List.length Nat.ltb Nat.leb forallb found negb andb].
  cbn [feeds feed packed path folder name files put_file]. change (path _) with (d' ++ slash :: n).
  destruct (text_dec (d' ++ slash :: n) (d' ++ slash :: n)) as [_|E]; [|congruence].
  cbn [List.map fst snd forallb andb format_of graph]. destruct (accepts _); [|discriminate]. intros [= <- <-] _.
  exists u, (target r). split; [reflexivity|]. split; [cbn [index put_index]; destruct (key_dec _ _) as [_|N]; [reflexivity|now elim N]|].
  destruct r; cbn; intuition congruence.
Qed.
End Statements.
Print Assumptions C109_reader_partial.
Print Assumptions C110_created.
Print Assumptions C110_kept.
Print Assumptions C110_opened.
Print Assumptions C110_deleted_partial.
Print Assumptions C110_indexes.

(* A small world. *)
#[local] Instance small : lib :=
  {| cache := chars "/c"; tool := fun _ => true; unpack := fun _ t => (t, true); accepts := fun _ => true; to_native := fun _ t => Some t |}.
Definition disk (l : list (string * string)) : world :=
  {| files := fun p => option_map (fun x => chars (snd x)) (find (fun x => same (chars (fst x)) p) l); index := fun _ => None |}.
Definition named (d : option string) (n : string) : config :=
  {| index_name := chars n; memory := None; buffer := None; parallel := None; index_dir := option_map chars d |}.
Definition nt (f n : string) : source := {| sfolder := chars f; sname := chars (n ++ ".nt"); sstem := chars n; skind := Plain RNTriples |}.

(* C109: in a folder that is given, a second text is not read: the index of the first one is served. *)
Theorem C109_reader_refuted : exists w cfg w1 w2 d, from_reader w (chars "/t1") (chars "one") RTurtle cfg = (w1, Some d) /\
  from_reader w1 (chars "/t2") (chars "two") RTurtle cfg = (w2, Some d) /\
  index w2 (d, index_name cfg) = Some [(NTriples, None, chars "one")].
Proof.
  exists (disk []), (named (Some "/i"%string) "x"). do 3 eexists. split; [vm_compute; reflexivity|]. split; vm_compute; reflexivity.
Qed.
Print Assumptions C109_reader_refuted.
Example C109_met_reader : exists w' d, from_reader (disk []) (chars "/t1") (chars "one") RTriG (named None "x") = (w', Some d) /\
  index (disk []) (d, chars "x") = None /\ index w' (d, chars "x") = Some [(NQuads, None, chars "one")].
Proof. do 2 eexists. split; [vm_compute; reflexivity|]. split; vm_compute; reflexivity. Qed.

(* With an index in the folder of the data, ending the server deletes the data. *)
Theorem C110_data_refuted : exists w l cfg w' s p, In p (List.map spath l) /\ files w p <> None /\
  serve_paths w l cfg true true = (w', Some s) /\ files (drop w' s) p = None.
Proof.
  exists (disk [("/d/a.nt", "one")%string]), [nt "/d" "a"], (named (Some "/d"%string) "x"). do 2 eexists. exists (chars "/d/a.nt").
  split; [now left|]. split; [vm_compute; discriminate|]. split; [vm_compute; reflexivity|vm_compute; reflexivity].
Qed.
(* An index of another name in the same folder, made before, is deleted. *)
Theorem C110_other_refuted : exists w l cfg cfg' w1 w2 s1 s2, index_name cfg <> index_name cfg' /\
  serve_paths w l cfg false true = (w1, Some s1) /\ serve_paths w1 l cfg' true true = (w2, Some s2) /\
  index w2 (dir s1, index_name cfg) <> None /\ index (drop w2 s2) (dir s1, index_name cfg) = None.
Proof.
  exists (disk [("/d/a.nt", "one")%string]), [nt "/d" "a"], (named (Some "/i"%string) "x"), (named (Some "/i"%string) "y"). do 4 eexists.
  split; [discriminate|]. split; [vm_compute; reflexivity|]. split; [vm_compute; reflexivity|]. split; [vm_compute; discriminate|vm_compute; reflexivity].
Qed.
(* Of two servers of one index, the end of the first takes the index from the second. *)
Theorem C110_shared_refuted : exists w l cfg w1 w2 s1 s2, serve_paths w l cfg true true = (w1, Some s1) /\
  serve_paths w1 l cfg true true = (w2, Some s2) /\ index w2 (dir s2, index_name cfg) <> None /\
  index (drop w2 s1) (dir s2, index_name cfg) = None.
Proof.
  exists (disk [("/d/a.nt", "one")%string]), [nt "/d" "a"], (named None "x"). do 4 eexists.
  split; [vm_compute; reflexivity|]. split; [vm_compute; reflexivity|]. split; [vm_compute; discriminate|vm_compute; reflexivity].
Qed.
(* When the server does not answer in time, the index that was made stays, although deleting was asked for;
   the next server does not delete it either. *)
Theorem C110_left_refuted : exists w l cfg w1 w2 s d, index w (d, index_name cfg) = None /\
  serve_paths w l cfg true false = (w1, None) /\ index w1 (d, index_name cfg) <> None /\
  serve_paths w1 l cfg true true = (w2, Some s) /\ dir s = d /\ index (drop w2 s) (d, index_name cfg) <> None.
Proof.
  exists (disk [("/d/a.nt", "one")%string]), [nt "/d" "a"], (named (Some "/i"%string) "x"). do 3 eexists. exists (chars "/i").
  split; [reflexivity|]. split; [vm_compute; reflexivity|]. split; [vm_compute; discriminate|]. split; [vm_compute; reflexivity|].
  split; [reflexivity|vm_compute; discriminate].
Qed.
Print Assumptions C110_data_refuted.
Print Assumptions C110_other_refuted.
Print Assumptions C110_shared_refuted.
Print Assumptions C110_left_refuted.

Example C110_met : filled plain_settings /\
  server_cmd (chars "ServerMain") (chars "my index") plain_settings =
    chars "ServerMain -i 'my index' -p 7 -m 5G --throw-on-unbound-variables true".
Proof. split; [|vm_compute; reflexivity]. intros x H. cbn in H. intuition congruence. Qed.
Example C110_met_deleted : exists w' s, let w := disk [("/d/a.nt", "one"); ("/i/b", "two")]%string in
  serve_paths w [nt "/d" "a"] (named (Some "/i"%string) "x") true true = (w', Some s) /\ index w (dir s, chars "x") = None /\
  files (drop w' s) (chars "/d/a.nt") = Some (chars "one") /\ files (drop w' s) (chars "/i/b") = None /\
  index (drop w' s) (dir s, chars "x") = None /\
  (exists s', open_index w' (dir s) (chars "x") true true = Some s' /\ drop w' s' = w').
Proof.
  do 2 eexists. split; [vm_compute; reflexivity|]. split; [reflexivity|]. split; [vm_compute; reflexivity|]. split; [vm_compute; reflexivity|].
  split; [vm_compute; reflexivity|]. eexists. split; [vm_compute; reflexivity|reflexivity].
Qed.
