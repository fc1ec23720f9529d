(* C108: listings are complete, logs are limited, and a restart finds what was loaded. *)
From Coq Require Import String Ascii List Bool Arith NArith Lia.
From Verif Require Import McModel McSpec McLemmas.
Import ListNotations.
Open Scope string_scope.
Open Scope nat_scope.
Open Scope list_scope.

(* ---------- pages ---------- *)

(* Following the cursors lists everything, once and in order. *)
Theorem C108_pages : forall A (l : list A), (N.of_nat (length l) < 2 ^ 64)%N ->
  walk l None l /\ forall r, walk l None r -> r = l.
Proof.
  intros A l H. destruct (walk_from l H (length l) 0 None) as [W U]; [lia | lia | reflexivity |].
  cbn [skipn] in *. now split.
Qed.
Print Assumptions C108_pages.

(* Pages have at most twenty entries, exactly twenty when others follow; without a request for pages
   there is one with everything. *)
Theorem C108_page_size : forall A (l : list A) c x n, page l (Some c) = Some (x, n) ->
  length x <= 20 /\ (n <> None -> length x = 20) /\ page l None = Some (l, None).
Proof.
  intros A l c x n H. unfold page in H.
  destruct (parse_cursor c (N.of_nat (length l))) as [k|]; [| discriminate].
  cbn zeta in H. injection H as <- <-. unfold page_size.
  rewrite firstn_length, skipn_length. repeat split; [lia |].
  destruct (N.min (N.min k (N.of_nat (length l)) + 20) (N.of_nat (length l)) <? N.of_nat (length l))%N eqn:E;
    [| congruence].
  intros _. apply N.ltb_lt in E. lia.
Qed.
Print Assumptions C108_page_size.

(* A number is refused as a cursor just when it is beyond the end. *)
Theorem C108_cursor : forall A (l : list A) n, (n < 2 ^ 64)%N ->
  page l (Some (Some (print n))) = None <-> (N.of_nat (length l) < n)%N.
Proof.
  intros A l n H. unfold page, parse_cursor. rewrite read_print by exact H.
  destruct (N.ltb_spec (N.of_nat (length l)) n) as [K|K]; split; try congruence; try reflexivity; intros; try discriminate; lia.
Qed.
Print Assumptions C108_cursor.

(* ---------- logs ---------- *)

(* The filter keeps what is as severe as the least level. *)
Theorem C108_level : forall a b, should_log a b = true <-> as_severe a b.
Proof.
  intros a b. split.
  - assert (G : forall n, skipn n severities <> [] -> hd_error (skipn n severities) = Some a ->
      In b (skipn n severities) -> as_severe a b).
    { intros n _ H K. exists (firstn n severities), (skipn n severities), []. rewrite app_nil_r, firstn_skipn. auto. }
    intros H. apply (G (level_to_value a)); destruct a, b; try discriminate; cbn; tauto.
  - intros (l & m & r & E & H & K). destruct m as [|x m]; [discriminate |]. injection H as ->.
    unfold severities in E.
    assert (P : forall c (q : list level) (z : list level), z = l ++ (c :: m) ++ r -> In b (c :: m) -> In b (skipn (length l) z)).
    { intros c q z -> I. rewrite skipn_app, Nat.sub_diag, skipn_all. cbn [app skipn]. rewrite app_comm_cons.
      apply in_or_app. now left. }
    specialize (P a [] _ E K).
    assert (N : nth_error (l ++ (a :: m) ++ r) (length l) = Some a)
      by (rewrite nth_error_app2, Nat.sub_diag by lia; reflexivity).
    rewrite <- E in N.
    do 8 (destruct l as [|? l];
          [cbn in N; injection N as <-; cbn in P; destruct b; intuition (try discriminate; reflexivity) |]).
    cbn in N. destruct (length l); discriminate.
Qed.
Print Assumptions C108_level.

(* What is sent was to be sent, and severe enough. *)
Theorem C108_sent : forall m ms lim p, In p (send_all m lim ms) ->
  In p ms /\ exists l, m = Some l /\ as_severe (snd p) l.
Proof.
  intros m ms. induction ms as [|[t l] ms IH]; intros lim p H; [destruct H |].
  cbn [send_all] in H. destruct (send_log l m lim t) as [lim' b] eqn:E. destruct b.
  - destruct H as [<- | H].
    + split; [now left |]. unfold send_log in E. destruct m as [m|]; [| discriminate]. exists m. split; [reflexivity |].
      apply C108_level. cbn [snd]. destruct (should_log l m); [reflexivity | discriminate].
    + destruct (IH _ _ H). split; [now right | assumption].
  - destruct (IH _ _ H). split; [now right | assumption].
Qed.
Print Assumptions C108_sent.

(* While there are not more of them than the limit, all that are severe enough are sent. *)
Theorem C108_all_sent : forall m ms most window now,
  length (filter (fun p => should_log (snd p) m) ms) <= most ->
  send_all (Some m) (limit most window now) ms = filter (fun p => should_log (snd p) m) ms.
Proof.
  intros m ms mo w now H.
  assert (G : forall ms lim, emitted lim + length (filter (fun p => should_log (snd p) m) ms) <= most lim ->
    send_all (Some m) lim ms = filter (fun p => should_log (snd p) m) ms).
  { clear. induction ms as [|[t l] ms IH]; intros lim H; [reflexivity |].
    cbn [send_all send_log filter snd] in *. destruct (should_log l m); [| now apply IH].
    cbn [length] in H. unfold should_emit.
    destruct (window lim <=? t - started lim); cbn [emitted most started window].
    - replace (0 <? most lim) with true by (symmetry; apply Nat.ltb_lt; lia). f_equal. apply IH. cbn. lia.
    - replace (emitted lim <? most lim) with true by (symmetry; apply Nat.ltb_lt; lia). f_equal. apply IH. cbn. lia. }
  apply G. exact H.
Qed.
Print Assumptions C108_all_sent.

(* The full statement: within each stretch of time as long as the window, at most as many messages are sent
   as the limit says.  Proved for twice as many. *)
Theorem C108_rate_partial : forall m ms most window now t, forward now (map fst ms) ->
  within t window (map fst (send_all m (limit most window now) ms)) <= 2 * most.
Proof.
  intros [m|] ms mo w now t F.
  - rewrite send_all_passed. apply (within_any _ (limit mo w now) t now); [reflexivity |].
    now apply forward_filter.
  - replace (send_all None (limit mo w now) ms) with (@nil (nat * level)); [cbn; lia |].
    clear F. induction ms as [|[x l] ms IH]; [reflexivity | exact IH].
Qed.
Print Assumptions C108_rate_partial.

(* Messages at the end of one window and at the start of the next. *)
Theorem C108_rate_refuted : exists m ms most window now t, forward now (map fst ms) /\
  within t window (map fst (send_all m (limit most window now) ms)) = 2 * most /\ 0 < most.
Proof.
  exists (Some Info), (repeat (999, Info) 50 ++ repeat (1000, Info) 50), 50, 1000, 0, 999.
  split; [vm_compute; repeat split; repeat constructor | split; [vm_compute; reflexivity | lia]].
Qed.
Print Assumptions C108_rate_refuted.

(* The most severe messages are dropped when others have used up the limit. *)
Theorem C108_urgent_refuted : exists ms now,
  In (now, Emergency) ms /\ ~ In (now, Emergency) (send_all (Some Debug) (limit 50 1000 0) ms).
Proof.
  exists (repeat (1, Debug) 50 ++ [(2, Emergency)]), 2. split.
  - apply in_or_app. right. now left.
  - vm_compute. intuition discriminate.
Qed.
Print Assumptions C108_urgent_refuted.

(* Messages are cut at 2048 characters and marked. *)
Theorem C108_truncate : forall t,
  (length t <= max_chars -> truncate t = t) /\
  (max_chars < length t -> firstn max_chars (truncate t) = firstn max_chars t /\
    skipn max_chars (truncate t) = points "...[truncated]").
Proof.
  intros t. unfold truncate. split; intros H.
  - apply Nat.leb_le in H. now rewrite H.
  - pose proof H as H'. apply Nat.leb_gt in H'. rewrite H'.
    assert (K : length (firstn max_chars t) = max_chars) by (rewrite firstn_length; lia).
    rewrite firstn_app, skipn_app, K, Nat.sub_diag. cbn [firstn skipn].
    rewrite (skipn_all2 (firstn max_chars t)) by lia. rewrite app_nil_r.
    rewrite firstn_firstn, Nat.min_id. split; reflexivity.
Qed.
Print Assumptions C108_truncate.

Lemma get_insert k v m k' : get k' (insert k v m) = if String.eqb k' k then Some v else get k' m.
Proof.
  induction m as [|[j w] m IH]; cbn [insert get]; [reflexivity |].
  destruct (String.eqb_spec k j) as [->|N]; cbn [get].
  - destruct (String.eqb k' j); reflexivity.
  - rewrite IH. destruct (String.eqb_spec k' j) as [->|N']; [| reflexivity].
    destruct (String.eqb_spec j k); congruence.
Qed.

(* The full statement: for all fields, the message is there, cut.  Proved where no field has its name. *)
Theorem C108_message_partial : forall message fields, (forall v, ~ In ("message", v) fields) ->
  get "message" (to_json message fields) = Some (truncate message).
Proof.
  intros message fields H. unfold to_json.
  assert (G : forall m, get "message" m = Some (truncate message) ->
    get "message" (fold_left (fun m f => insert (fst f) (snd f) m) fields m) = Some (truncate message)).
  { induction fields as [|[k v] fields IH]; intros m Hm; [exact Hm |]. cbn [fold_left fst snd].
    apply IH.
    - intros w K. apply (H w). now right.
    - rewrite get_insert. destruct (String.eqb_spec "message" k) as [<-|_]; [| exact Hm].
      destruct (H v). now left. }
  apply G. cbn [insert get]. reflexivity.
Qed.
Print Assumptions C108_message_partial.

(* A field may take the place of the message, and texts of fields are not cut. *)
Theorem C108_message_refuted : exists message fields,
  get "message" (to_json message fields) <> Some (truncate message).
Proof. exists [1%N], [("message", [2%N])]. vm_compute. discriminate. Qed.
Print Assumptions C108_message_refuted.

Theorem C108_field_refuted : exists message fields k v, get k (to_json message fields) = Some v /\
  max_chars + length (points "...[truncated]") < length v.
Proof.
  exists [], [("error", repeat 97%N 3000)], "error", (repeat 97%N 3000). split; [reflexivity |].
  apply Nat.ltb_lt. vm_compute. reflexivity.
Qed.
Print Assumptions C108_field_refuted.

(* ---------- what is kept ---------- *)

Lemma split_line s r : (forall c, In c (list_ascii_of_string s) -> c <> newline) ->
  split_lines (s ++ String newline r)%string = s :: split_lines r.
Proof.
  induction s as [|c s IH]; intros H; [reflexivity |].
  change (split_lines (String c (s ++ String newline r)%string) = String c s :: split_lines r).
  cbn [split_lines]. destruct (Ascii.eqb_spec c newline) as [E|_]; [destruct (H c); [now left | exact E] |].
  rewrite IH; [reflexivity |]. intros x K. apply H. now right.
Qed.

(* The number reported is that of the triples. *)
Theorem C108_count : forall l, Forall triple_line l -> count_triples (text_of l) = length l.
Proof.
  intros l H. unfold count_triples. induction H as [|s l (N & c & r & E & W & C) H IH]; [reflexivity |].
  cbn [text_of]. rewrite split_line by exact N. cbn [filter].
  assert (K : counted s = true).
  { subst s. unfold counted. cbn [trim_start]. rewrite W. destruct (Ascii.eqb_spec c "#"); [contradiction | reflexivity]. }
  rewrite K. cbn [length]. now rewrite IH.
Qed.
Print Assumptions C108_count.

Section Statements.
Context {L : store}.

Lemma read_rdf_rdf l : forall d d', read_rdf d l = (d', true) -> l <> [] -> exists g, d' = Some (Rdf g).
Proof.
  induction l as [|x l IH]; intros d d' H N; [congruence |]. cbn [read_rdf] in H.
  destruct x; try discriminate. destruct l as [|y l].
  - injection H as <-. eauto.
  - eapply IH; [exact H | discriminate].
Qed.

(* Sources that can all be read are merged, in order, into the graph there is. *)
Theorem C108_load : forall s g xs, loaded s = Some (Rdf g) -> xs <> [] ->
  let r := load_tool s (RdfSources (map Holds xs)) None in
  loaded (fst r) = Some (Rdf (fold_left merge xs g)) /\
  snd r = Loaded (count_triples (to_nt (fold_left merge xs g))).
Proof.
  intros s g xs D N. cbn zeta.
  assert (G : forall xs g, read_rdf (Some (Rdf g)) (map Holds xs) = (Some (Rdf (fold_left merge xs g)), true)).
  { clear. induction xs as [|x xs IH]; intros g; [reflexivity |]. cbn. apply IH. }
  unfold load_tool, load. destruct xs as [|x xs]; [congruence |]. cbn [map no_sources andb].
  change (Holds x :: map Holds xs) with (map Holds (x :: xs)). rewrite D, G. cbn [serialize].
  unfold persist. cbn [with_loaded available].
  destruct (available s); split; reflexivity.
Qed.

(* The full statement: for every call, a restart has the data there are.  Proved for graphs that were loaded
   without a failure, are not empty, and can be saved. *)
Theorem C108_restore_partial : forall s l s' n, faithful -> available s = true ->
  load_tool s (RdfSources l) None = (s', Loaded n) ->
  exists g, loaded s' = Some (Rdf g) /\ n = count_triples (to_nt g) /\
    (to_nt g <> "" -> loaded (restart s') = loaded s').
Proof.
  intros s l s' n (F1 & F2 & F3) A H. unfold load_tool, load in H.
  destruct (no_sources (RdfSources l) && true) eqn:E; [discriminate |].
  destruct (read_rdf (loaded s) l) as [d ok] eqn:R. destruct ok; [| discriminate].
  assert (N : l <> []) by (intros ->; discriminate).
  destruct (read_rdf_rdf l _ _ R N) as (g & ->). cbn [serialize] in H.
  unfold persist in H. cbn [with_loaded available] in H. rewrite A in H. injection H as <- <-.
  exists g. split; [reflexivity |]. split; [reflexivity |]. intros T. unfold restart, start. cbn [file loaded with_loaded].
  rewrite F1. cbn [ntriples]. destruct (to_nt g) eqn:X; [congruence |]. rewrite <- X, F2, F3. reflexivity.
Qed.

(* Errors reported to the model that calls leave everything as it is. *)
Theorem C108_tool_error : forall s l e s', load_tool s l e = (s', ToolError) -> s' = s.
Proof.
  intros s l e s' H. unfold load_tool, load in H.
  destruct (no_sources l && _); [now injection H |].
  destruct l as [l|l|]; [| | now injection H].
  - destruct e; [discriminate |]. destruct (read_rdf (loaded s) l) as [d []]; [| discriminate].
    destruct (serialize d); discriminate.
  - destruct e; [discriminate |]. destruct (read_pg (loaded s) l) as [d []]; [| discriminate].
    destruct (serialize d); discriminate.
Qed.

(* ---------- saving ---------- *)

(* A crash at any moment of a save leaves the old state or the new one, and the end of the save the new one. *)
Theorem C108_crash : forall d chunks rest k, proper d -> length (concat chunks ++ rest) <= space d ->
  let (d', p) := crash k d (saving chunks rest) in
  (read_target d' = read_target d \/ read_target d' = Some (concat chunks ++ rest)) /\
  (state p = Finished -> read_target d' = Some (concat chunks ++ rest)) /\
  (length chunks + 3 <= k -> state p = Finished).
Proof.
  intros d chunks rest k P S. destruct k as [|k].
  { cbn. split; [now left |]. split; [discriminate | intros; exfalso; lia]. }
  unfold saving, save_ops. cbn [crash].
  destruct (create_midway d (map Write chunks ++ [Flush rest; Rename]) P) as (d1 & i & -> & M & C & Sp).
  pose proof (crash_midway d i (concat chunks ++ rest) chunks rest k d1 M) as K.
  rewrite C in K. specialize (K eq_refl ltac:(lia)). cbn [length] in K.
  destruct (crash k d1 _) as [d' p]. destruct K as (K1 & K2 & _ & K4). repeat split; auto.
  intros Hk. apply K4. lia.
Qed.

(* The full statement: for every disk that is too small, the save fails and the old state stays.  Proved
   where the disk is full before the last part is written. *)
Theorem C108_full_partial : forall d chunks rest k, proper d -> space d < length (concat chunks) ->
  let (d', p) := crash k d (saving chunks rest) in
  read_target d' = read_target d /\ state p <> Finished /\ (length chunks + 1 <= k -> state p = Failed).
Proof.
  intros d chunks rest k P S. destruct k as [|k].
  { cbn. repeat split; [discriminate | intros; exfalso; lia]. }
  unfold saving, save_ops. cbn [crash].
  destruct (create_midway d (map Write chunks ++ [Flush rest; Rename]) P) as (d1 & i & -> & M & C & Sp).
  pose proof (crash_full d i chunks rest k d1 0 M ltac:(lia)) as K.
  destruct (crash k d1 _) as [d' p]. destruct K as (K1 & K2 & K3). repeat split; auto.
  intros Hk. apply K3. lia.
Qed.

End Statements.
Print Assumptions C108_load.
Print Assumptions C108_restore_partial.
Print Assumptions C108_tool_error.
Print Assumptions C108_crash.
Print Assumptions C108_full_partial.

(* A small store: a graph is its text, a file the state itself or parts of it. *)
#[local] Instance small : store := {
  graph := string;
  pgraph := string;
  byte := option persisted;
  zero := None;
  nothing := "";
  merge := String.append;
  pnothing := "";
  pmerge := String.append;
  to_nt g := g;
  of_nt s := if prefix "(" s then None else Some s;
  show_pg p := p;
  encode p := [None; Some p];
  decode l := match l with [None; Some p] => Some p | _ => None end;
}.

Definition rdf (l : list (source string)) : @sources small := RdfSources (L := small) l.
Definition pg (l : list (source string)) : @sources small := PgSources (L := small) l.
Definition fresh : @service small := start None true.
Definition empty_disk : @disk small :=
  {| target := None; temp := None; contents := fun _ => []; next := 0; space := 100 |}.

Example C108_met :
  page [1; 2; 3] (Some (Some "1")) = Some ([2; 3], None) /\
  snd (load_tool fresh (rdf [Holds "<s> <p> <o> ."]) None) = Loaded 1 /\
  loaded (restart (fst (load_tool fresh (rdf [Holds "<s> <p> <o> ."]) None))) = Some (Rdf (L := small) "<s> <p> <o> .") /\
  snd (load_tool fresh Unparsed None) = ToolError /\
  proper empty_disk /\
  read_target (fst (crash 9 empty_disk (saving [[None]] [None]))) = Some [None; None].
Proof.
  repeat split; try reflexivity; cbn; intros; discriminate.
Qed.

Example C108_met_lines : triple_line "<s> <p> <o> ." /\ as_severe Error Info /\ forward 0 [1; 1; 2].
Proof.
  split; [| split].
  - split; [intros c H; cbn in H; intuition (subst; discriminate) |].
    exists "<"%char, "s> <p> <o> .". repeat split. discriminate.
  - now apply C108_level.
  - cbn. lia.
Qed.

Example C108_met_faithful : exists L : store, faithful /\ exists g, to_nt g <> "".
Proof.
  exists {| graph := string; pgraph := unit; byte := persisted; zero := {| version := 0; ntriples := None; triples := None |};
     nothing := ""; merge := String.append; pnothing := tt; pmerge _ _ := tt; to_nt g := g; of_nt s := Some s;
     show_pg _ := ""; encode p := [p]; decode l := match l with [p] => Some p | _ => None end |}.
  split; [repeat split | exists "x"; discriminate].
Qed.

(* An endpoint is never loaded, though the tool asks for it: the empty list of data goes with it. *)
Theorem C108_endpoint_refuted : exists (L : store) e, forall s l,
  no_sources l = true -> load_tool s l (Some e) = (s, ProtocolError).
Proof. exists small, "https://dbpedia.org/sparql". intros s [[|]|[|]|] H; try discriminate; reflexivity. Qed.
Print Assumptions C108_endpoint_refuted.

(* A load that fails at its second source has changed the data, but not the state that is kept. *)
Theorem C108_unsaved_refuted : exists (L : store) (s : service) l,
  available s = true /\ loaded (restart s) = loaded s /\ snd (load_tool s l None) = ProtocolError /\
  loaded (fst (load_tool s l None)) <> loaded s /\
  loaded (restart (fst (load_tool s l None))) <> loaded (fst (load_tool s l None)).
Proof.
  exists small, fresh, (rdf [Holds "<s> <p> <o> ."; Missing]). repeat split; discriminate.
Qed.
Print Assumptions C108_unsaved_refuted.

(* An empty graph is no data after a restart. *)
Theorem C108_empty_refuted : exists (L : store) (s : service) l n,
  available s = true /\ snd (load_tool s l None) = Loaded n /\
  loaded (restart (fst (load_tool s l None))) <> loaded (fst (load_tool s l None)).
Proof. exists small, fresh, (rdf [Holds ""]), 0. repeat split. discriminate. Qed.
Print Assumptions C108_empty_refuted.

(* Property graphs are kept as if they were N-Triples: a restart has an empty graph. *)
Theorem C108_pg_refuted : exists (L : store) (s : service) l n,
  available s = true /\ snd (load_tool s l None) = Loaded n /\
  loaded (restart (fst (load_tool s l None))) = Some (Rdf nothing).
Proof. exists small, fresh, (pg [Holds "(n)"]), 1. repeat split. Qed.
Print Assumptions C108_pg_refuted.

(* Two calls at the same time: the data are loaded one after the other, the saves may come the other way round. *)
Theorem C108_order_refuted : exists (L : store) (s : service) l1 l2,
  exists s1 n1 t1 s2 n2 t2, available s = true /\
    load s l1 None = (s1, Loaded n1, Some t1) /\ load s1 l2 None = (s2, Loaded n2, Some t2) /\
    loaded (restart (persist (persist s2 t1) t2)) = loaded s2 /\
    loaded (restart (persist (persist s2 t2) t1)) <> loaded s2.
Proof.
  exists small, fresh, (rdf [Holds "a"]), (rdf [Holds "b"]).
  exists (with_loaded (L := small) fresh (Some (Rdf (L := small) "a"))), 1, "a".
  exists (with_loaded (L := small) fresh (Some (Rdf (L := small) "ab"))), 1, "ab". repeat split. discriminate.
Qed.
Print Assumptions C108_order_refuted.

(* When only the last part does not fit, the save is taken as done and the old state is lost. *)
Theorem C108_full_refuted : exists (L : store) (d : disk) chunks rest p,
  proper d /\ concat chunks ++ rest = encode p /\ space d < length (encode p) /\
  (exists old, read_target d = Some (encode old)) /\
  state (snd (crash (length chunks + 3) d (saving chunks rest))) = Finished /\
  match read_target (fst (crash (length chunks + 3) d (saving chunks rest))) with
  | Some b => decode b = None
  | None => False
  end.
Proof.
  pose (p := {| version := 1; ntriples := None; triples := None |}).
  exists small, {| target := Some 0; temp := None; contents := fun _ => encode (store := small) p; next := 1; space := 1 |},
    [[None]], [Some p], p.
  split; [repeat split; cbn; intros; try discriminate; injection H as <-; lia |].
  split; [reflexivity |]. split; [cbn; lia |]. split; [exists p; reflexivity |]. split; reflexivity.
Qed.
Print Assumptions C108_full_refuted.

(* Two saves at the same time share the temporary file: the target may be left with neither of the states,
   and in the end one save fails. *)
Theorem C108_race_refuted : exists (L : store) (d : disk) c1 c2 schedule rest,
  proper d /\ length c1 + length c2 <= space d /\ read_target d <> Some [] /\ c1 <> [] /\ c2 <> [] /\
  (let '(d', _, _) := both schedule d (saving [] c1) (saving [] c2) in read_target d' = Some []) /\
  (let '(d', p, q) := both (schedule ++ rest) d (saving [] c1) (saving [] c2) in
   state p = Finished /\ state q = Failed).
Proof.
  pose (p := {| version := 1; ntriples := None; triples := None |}).
  exists small, empty_disk, (encode (store := small) p), (encode (store := small) p).
  exists [true; true; false; true], [false; false].
  split; [repeat split; cbn; intros; discriminate |].
  repeat split; try (cbn; lia); try discriminate.
Qed.
Print Assumptions C108_race_refuted.
