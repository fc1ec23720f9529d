(** C83: reading and writing the terminals of the compact syntax.

    In full (ShEx 2.1, section 6): from every text, the longest word of the
    terminal is read, with its meaning,
      [reads never string STRING], [reads never iri_ref IRIREF],
      [reads never pn_local PN_LOCAL], [reads never blank_node_label BLANK_NODE_LABEL],
      [reads never iri (iris PNAME_NS PN_LOCAL)], [reads never regexp REGEXP], [reads never code CODE], …
    and what is printed is read back.  Numbers, language tags and white space are
    read so; the others with the differences stated and refuted below. *)
From Coq Require Import List NArith ZArith Bool Lia.
From Verif Require Import LexModel LexSpec LexCore LexLemmas LexNames LexPn LexLocal LexIri LexRest LexPrint.
Import ListNotations.
Local Open Scope N_scope.

(** * Reading *)

Theorem C83_numbers : reads never numeric_literal NUMBER.
Proof. exact reads_number. Qed.
Print Assumptions C83_numbers.

Theorem C83_tags : reads never lang_tag LANGTAG.
Proof. exact reads_lang_tag. Qed.
Print Assumptions C83_tags.

(** White space and comments: all of it is passed over, and nothing else. *)
Theorem C83_white_space : forall i, exists r, tws0 i = Ok tt r /\ skipped i r /\ forall r', skipped i r' -> r' = r.
Proof. intros i. destruct (tws0_total i) as (r & E & Sk). exists r. split; [exact E|split; [exact Sk|]]. intros r' H. exact (skipped_one _ _ _ H Sk). Qed.
Print Assumptions C83_white_space.

(** Strings, if no quote stands inside a long one and no escape is a surrogate. *)
Theorem C83_strings_partial : reads no_character string (strings 0).
Proof. exact reads_string. Qed.
Print Assumptions C83_strings_partial.

Theorem C83_iri_references_partial : reads no_character iri_ref IRIREF.
Proof. apply reads_scan, scan_iri_ref. Qed.
Print Assumptions C83_iri_references_partial.

(** Prefixes, if no two dots follow each other. *)
Theorem C83_prefixes_partial : reads never pname_ns single_dots.
Proof. apply reads_scan, scan_pname_ns. Qed.
Print Assumptions C83_prefixes_partial.

(** Local names, if they have no escape, no dot follows and the first character
    is ASCII; what is read in all the other cases is [local_dots keep]. *)
Theorem C83_local_names_partial :
  (forall i w r v, longest PN_LOCAL i w r -> PN_LOCAL w v -> no_escape w -> (forall s, r <> 46 :: s) ->
     (forall c s, w = c :: s -> c < 128) -> pn_local i = Ok v r) /\
  reads foreign pn_local (local_dots keep) /\
  (forall i, pn_local i = Panic <-> exists c r, i = c :: r /\ LOCAL_START c /\ 128 <= c).
Proof. split; [exact local_read|split; [exact reads_pn_local|exact local_panic]]. Qed.
Print Assumptions C83_local_names_partial.

Theorem C83_labels_partial :
  (forall i w r v, longest BLANK_NODE_LABEL i w r -> BLANK_NODE_LABEL w v -> (forall s, r <> 46 :: s) ->
     (forall c s, v = c :: s -> c < 128) -> blank_node_label i = Ok v r) /\
  reads foreign blank_node_label label_dots.
Proof. split; [exact label_read|exact reads_label]. Qed.
Print Assumptions C83_labels_partial.

Theorem C83_iris_partial : reads trouble iri (iris single_dots (local_dots keep)).
Proof. exact reads_iri. Qed.
Print Assumptions C83_iris_partial.

Theorem C83_literals_partial : reads trouble rdf_literal (literals (strings 0) (iris single_dots (local_dots keep))).
Proof. exact reads_literal. Qed.
Print Assumptions C83_literals_partial.

(** Regular expressions, if no backslash is given by its number. *)
Theorem C83_regexps_partial : forall i, ~ backslash i -> match regexp i with
  | Ok v r => exists w, i = w ++ r /\ (forall v', REGEXP w v' <-> v' = v) /\
                (forall w' r' v', i = w' ++ r' -> REGEXP w' v' -> (length w' <= length w)%nat)
  | Err | Fail => forall w r v, i = w ++ r -> ~ REGEXP w v
  | Panic => no_character i
  end.
Proof. exact regexp_reads. Qed.
Print Assumptions C83_regexps_partial.

(** Code: white space is passed over before the closing bracket. *)
Theorem C83_code_partial :
  (forall i v r, code i = Ok v r -> exists m j, i = [123] ++ m ++ [37] ++ j /\ star CODE_CHAR m v /\ skipped j (125 :: r)) /\
  (forall m j v r, star CODE_CHAR m v -> skipped j (125 :: r) ->
     code ([123] ++ m ++ [37] ++ j) = Ok v r \/ no_character ([123] ++ m ++ [37] ++ j)) /\
  (forall w v r, CODE w v -> code (w ++ r) = Ok v r \/ no_character (w ++ r)).
Proof.
  split; [exact code_reads|split; [exact code_read|]]. intros w v r (m & -> & St).
  pose proof (code_read m (125 :: r) v r St) as H. cbn [app] in *. rewrite <- !app_assoc. cbn [app]. apply H.
  split; [constructor|]. intros r' K. inversion K as [|c i r0 Hc|? ? ? ? ? ? E|? ? ? ? ? E]; subst; [reflexivity|].
  cbn in Hc. intuition discriminate.
Qed.
Print Assumptions C83_code_partial.

(** * Writing *)

(** Exactly the strings, IRIs, codes and patterns that need no escape are read
    back. *)
Theorem C83_printed_partial :
  (forall s r, (forall x, r <> 34 :: x) ->
     (string (pp_string s ++ r) = Ok s r <-> Forall (fun c => ~ In c [34; 92; 10; 13]) s)) /\
  (forall s r, iri_ref (pp_iri s ++ r) = Ok s r <->
     Forall (fun c => 32 < c /\ ~ In c [60; 62; 34; 123; 125; 124; 94; 96; 92]) s) /\
  (forall s r, code (pp_code s ++ r) = Ok s r <-> Forall (fun c => c <> 37 /\ c <> 92) s) /\
  (forall s f r, stops (fun c => In c [115; 109; 105; 120]) r ->
     (regexp (pp_pattern (s, f) ++ r) = Ok (s, f) r <-> printable_pattern s /\ printable_flags f)) /\
  (forall p l r, iri (pp_name p l ++ r) = Ok (Prefixed p l) r ->
     (p = [] \/ PN_PREFIX p) /\ (l = [] \/ local_dots keep l l)).
Proof. split; [exact prints_string|split; [exact prints_iri|split; [exact prints_code|split; [exact prints_pattern|exact prints_name]]]]. Qed.
Print Assumptions C83_printed_partial.

(** * Examples *)

(* the text it is, [-1.5e3], [@en-GB] and a comment *)
Example C83_met :
  numeric_literal [45; 49; 46; 53; 101; 51; 32] = Ok ([45; 49; 46; 53; 101; 51], Double) [32] /\
  lang_tag [64; 101; 110; 45; 71; 66; 46] = Ok [101; 110; 45; 71; 66] [46] /\
  tws0 [32; 35; 97; 10; 47; 42; 42; 47; 98] = Ok tt [98] /\
  string [39; 97; 92; 117; 48; 48; 52; 49; 92; 110; 39; 34] = Ok [97; 65; 10] [34] /\
  string [39; 39; 39; 10; 39; 39; 39] = Ok [10] [] /\
  iri [101; 120; 58; 97; 46; 98; 32] = Ok (Prefixed [101; 120] [97; 46; 98]) [32] /\
  iri [60; 97; 62] = Ok (Iri [97]) [] /\
  blank_node_label [95; 58; 97; 32] = Ok [97] [32] /\
  rdf_literal [34; 97; 34; 94; 94; 101; 120; 58; 100; 32] = Ok (Typed [97] (Prefixed [101; 120] [100])) [32] /\
  regexp [47; 97; 92; 47; 92; 46; 47; 105; 32] = Ok ([97; 47; 92; 46], Some [105]) [32] /\
  code [123; 97; 92; 37; 37; 125; 32] = Ok [97; 37] [32] /\
  pname_ns [97; 46; 98; 58; 99] = Ok [97; 46; 98] [99].
Proof. vm_compute. repeat split. Qed.
Lemma base_ascii : forall c, letter c -> PN_CHARS_BASE c.
Proof. intros c [H|H]; [exists (65, 90)|exists (97, 122)]; (split; [cbn; tauto|exact H]). Qed.
Lemma a_local : forall e, pn_local_of e [97] [97].
Proof.
  intros e. exists [97], [], [97], []. split; [reflexivity|split; [reflexivity|split; [|left; auto]]]. left. exists 97. split; [reflexivity|split; [reflexivity|]].
  left; left. apply base_ascii. right. lia.
Qed.
Lemma whole : forall A (L : lang A) w, longest L w w [].
Proof. intros A L w. split; [rewrite app_nil_r; reflexivity|]. intros w' r' v' -> _. rewrite app_length. lia. Qed.
(** The hypotheses are met by the name and the label [a]. *)
Example C83_local_met : longest PN_LOCAL [97] [97] [] /\ PN_LOCAL [97] [97] /\ no_escape [97] /\
  longest BLANK_NODE_LABEL [95; 58; 97] [95; 58; 97] [] /\ BLANK_NODE_LABEL [95; 58; 97] [97].
Proof.
  split; [apply whole|split; [apply a_local|split; [intros [K|[]]; discriminate|split; [apply whole|]]]].
  split; [reflexivity|]. exists 97, []. split; [reflexivity|split; [|left; reflexivity]]. left; left. apply base_ascii. right. lia.
Qed.
Example C83_code_met : CODE [123; 97; 37; 125] [97] /\ skipped [32; 125] [125] /\ printable_pattern [97; 92; 46] /\ printable_flags (Some [105]).
Proof.
  split; [|split; [apply tws0_skips; reflexivity|split]].
  - exists [97]. split; [reflexivity|]. apply (star_cons _ [97] 97 [] []); [|constructor]. left. split; [reflexivity|]. split; discriminate.
  - split; [discriminate|]. exists [[97]; [92; 46]]. apply (star_cons _ [97] [97] [92; 46]); [|apply (star_cons _ [92; 46] [92; 46] []); [|constructor]].
    + split; [reflexivity|]. exists 97. left. split; [reflexivity|]. cbn. intuition discriminate.
    + split; [reflexivity|]. exists 46. right. split; [reflexivity|]. cbn. tauto.
  - split; [discriminate|]. constructor; [cbn; tauto|constructor].
Qed.
Example C83_backslash_met : ~ backslash [47; 97; 47].
Proof.
  intros (a & w & b & E & ds & _ & H). assert (K : In 92 [47; 97; 47]).
  { rewrite E. apply in_or_app; right. apply in_or_app; left. destruct H as [(-> & _)|(-> & _)]; left; reflexivity. }
  cbn in K. intuition discriminate.
Qed.

(** * What is not read *)

(** The string it's between three quotes: the string ends after two quotes. *)
Theorem C83_long_string_refuted : exists i v, STRING i v /\ longest STRING i i [] /\ string i = Ok [] [39; 105; 116; 39; 115; 39; 39; 39].
Proof.
  exists [39; 39; 39; 105; 116; 39; 115; 39; 39; 39], [105; 116; 39; 115]. split; [|split; [apply whole|reflexivity]].
  left; left. exists [[105]; [116]; [39; 115]]. split; [reflexivity|]. exists [105; 116; 39; 115]. split; [reflexivity|].
  assert (P : forall c, ~ In c [39; 92] -> char_but [39; 92] [c] c) by (intros c H; left; split; [reflexivity|exact H]).
  apply (star_cons _ [105] [105] [116; 39; 115]).
  { exists 0%nat, [105], 105. split; [lia|split; [reflexivity|split; [reflexivity|]]]. apply P. cbn. intuition discriminate. }
  apply (star_cons _ [116] [116] [39; 115]).
  { exists 0%nat, [116], 116. split; [lia|split; [reflexivity|split; [reflexivity|]]]. apply P. cbn. intuition discriminate. }
  apply (star_cons _ [39; 115] [39; 115] []); [|constructor].
  exists 1%nat, [115], 115. split; [lia|split; [reflexivity|split; [reflexivity|]]]. apply P. cbn. intuition discriminate.
Qed.
Print Assumptions C83_long_string_refuted.

(** The escape of a surrogate, in a string, an IRI, a pattern or a code, is not
    refused: the program panics. *)
Theorem C83_surrogate_refuted : exists e,
  string ([34] ++ e ++ [34]) = Panic /\ iri_ref ([60] ++ e ++ [62]) = Panic /\ regexp ([47] ++ e ++ [47]) = Panic /\ code ([123] ++ e ++ [37; 125]) = Panic.
Proof. exists [92; 117; 68; 56; 48; 48]. vm_compute. auto. Qed.
Print Assumptions C83_surrogate_refuted.

(** A dot behind a name or a label becomes a part of it. *)
Lemma not_a_dot : forall v, ~ PN_LOCAL [97; 46] v.
Proof.
  intros v (w1 & w2 & a & b & E & _ & H1 & H2).
  assert (L1 : w1 <> []) by (destruct H1 as [(c & -> & _)|[(_ & x & y & d & e & -> & _)|(c & -> & _)]]; discriminate).
  destruct H2 as [(-> & _)|(u1 & u2 & vs & x & -> & _ & _ & H2)].
  - rewrite app_nil_r in E. subst w1. destruct H1 as [(c & E & _)|[(_ & x & y & d & e & E & _)|(c & E & _)]]; discriminate.
  - assert (L2 : u2 <> []) by (destruct H2 as [(c & -> & _)|[(_ & y & z & d & e & -> & _)|(c & -> & _)]]; discriminate).
    destruct w1 as [|c1 [|c2 w1]]; [congruence| |].
    + cbn in E. injection E as <- E. destruct u1 as [|d1 u1]; cbn in E.
      * subst u2. destruct H2 as [(c & E & _ & H2)|[(_ & y & z & d & e & E & _)|(c & E & _)]]; [|discriminate|discriminate].
        injection E as <-. destruct H2 as [H2|H2]; [exact (dot_not_char H2)|discriminate].
      * injection E as <- E. destruct u1; [|discriminate]. cbn in E. subst u2. destruct (L2 eq_refl).
    + cbn in E. injection E as <- <- E. destruct w1; [|discriminate]. destruct u1; [|discriminate]. cbn in E. subst u2. destruct (L2 eq_refl).
Qed.
Theorem C83_dot_refuted :
  (exists i w r v, longest PN_LOCAL i w r /\ PN_LOCAL w v /\ pn_local i = Ok i [] /\ r <> []) /\
  (exists i w r l, longest BLANK_NODE_LABEL i w r /\ BLANK_NODE_LABEL w l /\ blank_node_label i = Ok (l ++ r) [] /\ r <> []).
Proof.
  split.
  - exists [97; 46], [97], [46], [97]. split; [|split; [apply a_local|split; [reflexivity|discriminate]]]. split; [reflexivity|].
    intros w' r' v' E H. destruct w' as [|c1 [|c2 w']]; cbn; [lia|lia|]. cbn in E. injection E as <- <- E. destruct w'; [|discriminate].
    destruct (not_a_dot _ H).
  - exists [95; 58; 97; 46], [95; 58; 97], [46], [97]. split; [|split; [|split; [reflexivity|discriminate]]].
    + split; [reflexivity|]. intros w' r' v' E H. destruct w' as [|c1 [|c2 [|c3 [|c4 w']]]]; cbn; try lia.
      cbn in E. injection E as <- <- <- <- E. destruct w'; [|discriminate]. exfalso.
      destruct H as (E2 & c & s & -> & _ & H). cbn in E2. injection E2 as <- <-. destruct H as [H|(m & d & E3 & _ & H)]; [discriminate|].
      destruct m as [|x m]; cbn in E3; [|injection E3 as _ E3; destruct m; discriminate]. injection E3 as <-. exact (dot_not_char H).
    + split; [reflexivity|]. exists 97, []. split; [reflexivity|split; [|left; reflexivity]]. left; left. apply base_ascii. right. lia.
Qed.
Print Assumptions C83_dot_refuted.

(** A local name or a label that begins with a letter beyond ASCII: a panic. *)
Theorem C83_foreign_refuted : PN_LOCAL [233] [233] /\ pn_local [233] = Panic /\ iri [101; 120; 58; 233] = Panic /\
  BLANK_NODE_LABEL [95; 58; 233] [233] /\ blank_node_label [95; 58; 233] = Panic.
Proof.
  assert (B : PN_CHARS_BASE 233) by (exists (0xD8, 0xF6); split; [cbn; tauto|cbn; lia]).
  split; [|split; [reflexivity|split; [reflexivity|split; [|reflexivity]]]].
  - exists [233], [], [233], []. split; [reflexivity|split; [reflexivity|split; [|left; auto]]]. left. exists 233. split; [reflexivity|split; [reflexivity|]]. left; left. exact B.
  - split; [reflexivity|]. exists 233, []. split; [reflexivity|split; [|left; reflexivity]]. left; left. exact B.
Qed.
Print Assumptions C83_foreign_refuted.

(** The backslash of the escape in [a\-b] becomes a part of the name. *)
Theorem C83_local_escape_refuted : exists i v, PN_LOCAL i v /\ longest PN_LOCAL i i [] /\ pn_local i = Ok i [] /\ v <> i.
Proof.
  exists [97; 92; 45], [97; 45]. split; [|split; [apply whole|split; [reflexivity|discriminate]]].
  exists [97], [92; 45], [97], [45]. split; [reflexivity|split; [reflexivity|split]].
  - left. exists 97. split; [reflexivity|split; [reflexivity|]]. left; left. apply base_ascii. right. lia.
  - right. exists [], [92; 45], [], [45]. split; [reflexivity|split; [reflexivity|split; [constructor|]]]. right; right. exists 45. split; [reflexivity|split; [reflexivity|cbn; tauto]].
Qed.
Print Assumptions C83_local_escape_refuted.

(** The prefix [a..b:] is refused. *)
Theorem C83_prefix_refuted : exists i p, PNAME_NS i p /\ pname_ns i = Err.
Proof.
  assert (B : forall c, letter c -> PN_CHARS c) by (intros c H; left; left; apply base_ascii, H).
  exists [97; 46; 46; 98; 58], [97; 46; 46; 98]. split; [|reflexivity]. split; [reflexivity|right].
  exists 97, [46; 46; 98]. split; [reflexivity|split; [apply base_ascii; right; lia|right]]. exists [46; 46], 98. split; [reflexivity|split].
  - constructor; [left; reflexivity|constructor; [left; reflexivity|constructor]].
  - apply B. right. lia.
Qed.
Print Assumptions C83_prefix_refuted.

(** A backslash given by its number is resolved twice: alone it is a panic; in
    front of the characters u0041 it makes the letter A of them. *)
Lemma numeral4 : forall a b c d x y z t, hex_digit a x -> hex_digit b y -> hex_digit c z -> hex_digit d t ->
  numeral [a; b; c; d] (16 * (16 * (16 * (16 * 0 + x) + y) + z) + t).
Proof.
  intros. apply (numeral_snoc [a; b; c]); [|assumption]. apply (numeral_snoc [a; b]); [|assumption]. apply (numeral_snoc [a]); [|assumption].
  apply (numeral_snoc []); [constructor|assumption].
Qed.
Lemma u005c : UCHAR [92; 117; 48; 48; 53; 67] 92.
Proof.
  split; [|split; lia]. exists [48; 48; 53; 67]. split; [|left; auto]. change 92 with (16 * (16 * (16 * (16 * 0 + 0) + 0) + 5) + 12).
  apply numeral4; [left; lia|left; lia|left; lia|right; left; lia].
Qed.
Theorem C83_regexp_refuted :
  (exists i, REGEXP i ([92], None) /\ longest REGEXP i i [] /\ regexp i = Panic) /\
  (exists i, REGEXP i ([92; 117; 48; 48; 52; 49], None) /\ longest REGEXP i i [] /\ regexp i = Ok ([65], None) []).
Proof.
  assert (P : forall c, ~ In c [47; 92; 10; 13] -> regexp_piece (fun _ => True) [c] [c]) by (intros c H; left; exists c; auto).
  assert (U : regexp_piece (fun _ => True) [92; 117; 48; 48; 53; 67] [92]) by (right; right; exists 92; split; [reflexivity|split; [exact u005c|exact Logic.I]]).
  split.
  - exists [47; 92; 117; 48; 48; 53; 67; 47]. split; [|split; [apply whole|reflexivity]].
    exists [92; 117; 48; 48; 53; 67], [], [[92]]. split; [reflexivity|split; [|split; [discriminate|split; [constructor|reflexivity]]]].
    apply (star_cons _ [92; 117; 48; 48; 53; 67] [92] [] [] U). constructor.
  - exists [47; 92; 117; 48; 48; 53; 67; 117; 48; 48; 52; 49; 47]. split; [|split; [apply whole|reflexivity]].
    exists [92; 117; 48; 48; 53; 67; 117; 48; 48; 52; 49], [], [[92]; [117]; [48]; [48]; [52]; [49]].
    split; [reflexivity|split; [|split; [discriminate|split; [constructor|reflexivity]]]].
    apply (star_cons _ [92; 117; 48; 48; 53; 67] [92] [117; 48; 48; 52; 49] _ U).
    do 5 (match goal with |- star _ (?c :: ?s) _ => apply (star_cons _ [c] [c] s); [apply P; cbn; intuition discriminate|] end). constructor.
Qed.
Print Assumptions C83_regexp_refuted.

(** [{a% }] is read as a code, which it is not. *)
Theorem C83_code_refuted : exists i v, code i = Ok v [] /\ forall w r v', i = w ++ r -> ~ CODE w v'.
Proof.
  exists [123; 97; 37; 32; 125], [97]. split; [reflexivity|]. intros w r v' E (m & -> & _).
  rewrite <- !app_assoc in E. cbn in E. injection E as E. do 5 (destruct m as [|? m]; cbn in E; try discriminate; injection E as _ E).
Qed.
Print Assumptions C83_code_refuted.

(** A number that does not fit into 128 bits is refused where an integer is due. *)
Theorem C83_integer_refuted : exists i, INTEGER i /\ integer i = Err.
Proof.
  exists (repeat 57 39). split; [|vm_compute; reflexivity]. exists [], (repeat 57 39). split; [reflexivity|split; [left; reflexivity|split; [discriminate|]]].
  apply Forall_forall. intros c H. apply repeat_spec in H. subst c. unfold digit. lia.
Qed.
Print Assumptions C83_integer_refuted.

(** Printed and read back: a string with a quote, [a], quote, [b], is cut; one
    with a line end is an error; one that ends with a backslash is an error; a
    pattern with a slash and a code with a percent sign are cut; and of the name
    [ex:a/b] the part behind the slash is left over. *)
Theorem C83_printed_refuted :
  string (pp_string [97; 34; 98]) = Ok [97] [98; 34] /\
  string (pp_string [10]) = Err /\
  string (pp_string [92]) = Err /\
  regexp (pp_pattern ([97; 47; 98], None)) = Ok ([97], None) [98; 47] /\
  code (pp_code [37]) = Fail /\
  iri (pp_name [101; 120] [97; 47; 98]) = Ok (Prefixed [101; 120] [97]) [47; 98] /\
  (* the meaning of [/a\/b/], printed *)
  exists i p, regexp i = Ok p [] /\ regexp (pp_pattern p) <> Ok p [].
Proof.
  repeat (split; [vm_compute; reflexivity|]). exists [47; 97; 92; 47; 98; 47], ([97; 47; 98], None). split; [reflexivity|vm_compute; discriminate].
Qed.
Print Assumptions C83_printed_refuted.
