(** C23, C24, C38, C39. *)
From Coq Require Import List Arith Bool Lia Ascii String.
Import ListNotations.
From Verif Require Import PrefixModel PrefixSpec PrefixLemmas.

(** the bytes of a string literal, for the examples *)
Definition bytes (s : string) : str := map nat_of_ascii (list_ascii_of_string s).
Definition ex_ns : str := bytes "http://e.org/".
Definition ex_map : pmap := [(bytes "e", ex_ns); (bytes "ea", bytes "http://e.org/a/"); (bytes "isbn", bytes "urn:isbn:")].
Lemma ex_map_proper : proper ex_map.
Proof. unfold proper. repeat constructor; cbn; intuition discriminate. Qed.

(** C24. After any history of updates each alias has the namespace the finite map says. *)
Theorem C24_finite_map ops m :
  Forall proper_op ops -> history ops m -> proper (run ops) /\ forall a, find a (run ops) = m a.
Proof. intros P H. split; [apply run_proper|exact (run_find ops m P H)]. Qed.
Print Assumptions C24_finite_map.
Theorem C24_history_exists ops : Forall proper_op ops -> exists m, history ops m.
Proof. intro P. exists (fun a => find a (run ops)). exact (run_history ops P). Qed.
Print Assumptions C24_history_exists.
Example C24_history_met :
  let ops := [Add (bytes "e") ex_ns; Add (bytes "f") ex_ns; Merge [(bytes "f", bytes "http://g/")]; Remove (bytes "e")] in
  Forall proper_op ops /\ run ops = [(bytes "f", bytes "http://g/")].
Proof. split; [repeat constructor; intros []|reflexivity]. Qed.

(** The abbreviation uses a longest matching namespace, and exists when any namespace matches. *)
Theorem C24_longest m iri :
  match longest_prefix_match m iri with
  | Some (alias, rest) =>
      denotes m alias rest iri /\ forall alias' rest', denotes m alias' rest' iri -> List.length rest <= List.length rest'
  | None => forall alias rest, ~ denotes m alias rest iri
  end.
Proof. exact (longest_spec m iri). Qed.
Print Assumptions C24_longest.
Theorem C24_qualify m iri s :
  qualify_optional m iri = Some s -> exists alias rest, s = alias ++ colon :: rest /\ denotes m alias rest iri.
Proof.
  unfold qualify_optional. pose proof (longest_spec m iri) as S. destruct (longest_prefix_match m iri) as [[alias rest]|]; [|discriminate].
  intro H. injection H as <-. exists alias, rest. split; [reflexivity|apply S].
Qed.
Print Assumptions C24_qualify.
Theorem C24_length m iri : fst (qualify_and_length m iri) = qualify m iri /\ snd (qualify_and_length m iri) = List.length (qualify m iri).
Proof.
  unfold qualify, qualify_and_length, qualify_optional. destruct (longest_prefix_match m iri) as [[alias rest]|]; cbn [fst snd]; (split; [reflexivity|]).
  - rewrite app_length. cbn [List.length]. lia.
  - cbn [List.length]. rewrite app_length. cbn [List.length]. lia.
Qed.
Print Assumptions C24_length.
Example C24_longest_met : qualify ex_map (bytes "http://e.org/a/b") = bytes "ea:b" /\ denotes ex_map (bytes "e") (bytes "a/b") (bytes "http://e.org/a/b").
Proof. split; [reflexivity|]. exists ex_ns. split; [left; reflexivity|reflexivity]. Qed.

(** C23. An abbreviated IRI resolves back to itself exactly when the local part is empty or the
    namespace ends in '/' or '#' (full statement: always). Missing: local parts with a colon. *)
Theorem C23_round_trip_partial is_iri m iri alias rest :
  proper m -> is_iri iri = true -> longest_prefix_match m iri = Some (alias, rest) -> ~ In colon rest ->
  (resolve is_iri m (qualify m iri) = Some iri <->
   rest = [] \/ exists ns, In (alias, ns) m /\ iri = ns ++ rest /\ ends_in_separator ns).
Proof. exact (round_trip is_iri m iri alias rest). Qed.
Print Assumptions C23_round_trip_partial.
Example C23_round_trip_met :
  proper ex_map /\ longest_prefix_match ex_map (bytes "http://e.org/x") = Some (bytes "e", bytes "x") /\ ~ In colon (bytes "x") /\
  ends_in_separator ex_ns /\ resolve (fun _ => true) ex_map (qualify ex_map (bytes "http://e.org/x")) = Some (bytes "http://e.org/x").
Proof.
  split; [exact ex_map_proper|]. split; [reflexivity|]. split; [cbn; intuition discriminate|]. split; [|reflexivity].
  exists (bytes "http://e.org"). left. reflexivity.
Qed.

(** The local part contains a colon: [resolve] splits at the last one. *)
Theorem C23_colon_refuted : exists m iri s,
  proper m /\ qualify_optional m iri = Some s /\ forall is_iri, resolve is_iri m s = None.
Proof. exists ex_map, (bytes "http://e.org/a:b"), (bytes "e:a:b"). split; [exact ex_map_proper|]. split; reflexivity. Qed.
Print Assumptions C23_colon_refuted.
(** The namespace ends in another character: [extend] inserts a slash. *)
Theorem C23_separator_refuted : exists m iri s,
  proper m /\ qualify_optional m iri = Some s /\ forall is_iri, is_iri iri = true -> resolve is_iri m s <> Some iri.
Proof.
  exists ex_map, (bytes "urn:isbn:1"), (bytes "isbn:1"). split; [exact ex_map_proper|]. split; [reflexivity|].
  intros is_iri V. assert (E : resolve is_iri ex_map (bytes "isbn:1") = if is_iri (bytes "urn:isbn:/1") then Some (bytes "urn:isbn:/1") else None) by reflexivity.
  rewrite E. destruct (is_iri (bytes "urn:isbn:/1")); discriminate.
Qed.
Print Assumptions C23_separator_refuted.

(** C38. A prefixed name denotes the concatenation of namespace and local part: exactly what is
    computed, and when it is right. *)
Theorem C38_resolve is_iri m prefix local i : proper m ->
  (resolve_prefix_local is_iri m prefix local = Some i <->
   exists ns, In (prefix, ns) m /\
     (local = [] /\ i = ns \/
      local <> [] /\ is_iri i = true /\ (ends_in_separator ns /\ i = ns ++ local \/ ~ ends_in_separator ns /\ i = ns ++ slash :: local))).
Proof. exact (resolve_local_spec is_iri m prefix local i). Qed.
Print Assumptions C38_resolve.
Theorem C38_concatenation_partial is_iri m prefix local ns i : proper m -> In (prefix, ns) m -> ends_in_separator ns ->
  resolve_prefix_local is_iri m prefix local = Some i -> denotes m prefix local i.
Proof.
  intros P I S H. apply (resolve_local_spec is_iri m prefix local i P) in H. destruct H as (ns' & I' & H).
  assert (ns' = ns) by (apply (In_find _ _ _ P) in I, I'; congruence). subst ns'. exists ns. split; [exact I|].
  destruct H as [[-> ->]|(_ & _ & [[_ ->]|[N _]])]; [rewrite app_nil_r; reflexivity|reflexivity|destruct (N S)].
Qed.
Print Assumptions C38_concatenation_partial.
Theorem C38_separator_refuted : exists m prefix local i,
  proper m /\ denotes m prefix local i /\ forall is_iri j, resolve_prefix_local is_iri m prefix local = Some j -> j <> i.
Proof.
  exists ex_map, (bytes "isbn"), (bytes "1"), (bytes "urn:isbn:1"). split; [exact ex_map_proper|].
  split; [exists (bytes "urn:isbn:"); split; [right; right; left; reflexivity|reflexivity]|].
  intros is_iri j. assert (E : resolve_prefix_local is_iri ex_map (bytes "isbn") (bytes "1") = if is_iri (bytes "urn:isbn:/1") then Some (bytes "urn:isbn:/1") else None) by reflexivity.
  rewrite E. destruct (is_iri (bytes "urn:isbn:/1")); [|discriminate]. intro H. injection H as <-. discriminate.
Qed.
Print Assumptions C38_separator_refuted.
Example C38_met : resolve_prefix_local (fun _ => true) ex_map (bytes "e") (bytes "a:b") = Some (bytes "http://e.org/a:b").
Proof. reflexivity. Qed.

(** C39. Equality of prefix maps is equality of finite maps, and equal maps hash alike. *)
Theorem C39_equality m m' : proper m -> proper m' -> (pmap_eqb m m' = true <-> forall a, find a m = find a m').
Proof. exact (pmap_eqb_spec m m'). Qed.
Print Assumptions C39_equality.
Theorem C39_hash m m' : proper m -> proper m' -> pmap_eqb m m' = true -> hash_input m = hash_input m'.
Proof. exact (equal_hash m m'). Qed.
Print Assumptions C39_hash.
Example C39_met : proper (rev ex_map) /\ pmap_eqb ex_map (rev ex_map) = true /\ ex_map <> rev ex_map.
Proof. split; [unfold proper; repeat constructor; cbn; intuition discriminate|]. split; [reflexivity|discriminate]. Qed.
