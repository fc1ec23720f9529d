(** The reader of tables reads what the table says. *)
From Coq Require Import String List Arith Bool Lia.
Import ListNotations.
From Verif Require Import CompModel TapModel TapSpec.

(** ** text *)
Lemma str_eqb_eq s t : str_eqb s t = true <-> s = t.
Proof.
  revert t. induction s as [|a s IH]; intros [|b t]; cbn; split; intro H; try congruence.
  - apply andb_true_iff in H as [H1 H2]. apply Nat.eqb_eq in H1 as ->. apply IH in H2 as ->. reflexivity.
  - injection H as -> ->. rewrite Nat.eqb_refl. apply IH. reflexivity.
Qed.
Lemma is_nil_true {A} (l : list A) : is_nil l = true <-> l = [].
Proof. destruct l; cbn; split; congruence. Qed.
Lemma is_space_iff c : is_space c = true <-> space c.
Proof.
  unfold is_space, space. rewrite !orb_true_iff, andb_true_iff, !Nat.leb_le. cbn [existsb].
  rewrite !orb_true_iff, !Nat.eqb_eq. intuition congruence.
Qed.
Lemma is_space_false c : is_space c = false <-> ~ space c.
Proof. rewrite <- is_space_iff. destruct (is_space c); intuition congruence. Qed.
Lemma space_dec c : {space c} + {~ space c}.
Proof. destruct (is_space c) eqn:E; [left; apply is_space_iff, E|right; apply is_space_false, E]. Qed.
Lemma blank_dec s : {blank s} + {~ blank s}.
Proof. apply Forall_dec, space_dec. Qed.

Lemma trim_start_spec s : exists a, s = a ++ trim_start s /\ blank a /\ (forall c r, trim_start s = c :: r -> ~ space c).
Proof.
  induction s as [|c s [a (E & B & H)]]; cbn.
  - exists []. repeat split; [constructor|discriminate].
  - destruct (is_space c) eqn:Ec.
    + exists (c :: a). cbn. rewrite <- E. repeat split; [|exact H]. constructor; [apply is_space_iff, Ec|exact B].
    + exists []. repeat split; [constructor|]. intros ? ? [= <- <-]. apply is_space_false, Ec.
Qed.
Lemma trim_start_unique a t : blank a -> (forall c r, t = c :: r -> ~ space c) -> trim_start (a ++ t) = t.
Proof.
  intros B H. induction B as [|c a Hc B IH]; cbn.
  - destruct t as [|c t]; [reflexivity|]. cbn. assert (E : is_space c = false) by (apply is_space_false; exact (H _ _ eq_refl)). rewrite E. reflexivity.
  - apply is_space_iff in Hc. rewrite Hc. exact IH.
Qed.
Lemma Forall_rev' {A} (P : A -> Prop) l : Forall P l -> Forall P (rev l).
Proof. rewrite !Forall_forall. intros H x I. apply H, in_rev, I. Qed.
Lemma stripped_trim s : stripped s (trim s).
Proof.
  unfold trim. destruct (trim_start_spec s) as [a (E & B & H)].
  destruct (trim_start_spec (rev (trim_start s))) as [b (E' & B' & H')].
  exists a, (rev b). apply (f_equal (@rev nat)) in E'. rewrite rev_involutive, rev_app_distr in E'.
  split; [|split; [exact B|split; [apply Forall_rev', B'|split]]].
  - rewrite <- E'. exact E.
  - intros c r Ec. rewrite Ec in E'. cbn in E'. exact (H _ _ E').
  - intros c r Ec. apply (f_equal (@rev nat)) in Ec. rewrite rev_involutive, rev_app_distr in Ec. exact (H' _ _ Ec).
Qed.
Lemma stripped_unique s t : stripped s t -> t = trim s.
Proof.
  intros (a & b & -> & B & B' & H & H'). unfold trim.
  destruct t as [|c t].
  - cbn. assert (E : trim_start (a ++ b) = []).
    { rewrite <- (app_nil_r (a ++ b)). apply trim_start_unique; [apply Forall_app; split; assumption|discriminate]. }
    rewrite E. reflexivity.
  - rewrite trim_start_unique; [|exact B|].
    + rewrite rev_app_distr. rewrite trim_start_unique; [symmetry; apply rev_involutive|apply Forall_rev', B'|].
      intros x r Ex. apply (f_equal (@rev nat)) in Ex. rewrite rev_involutive in Ex. apply (H' x (rev r)). exact Ex.
    + cbn. intros ? ? [= <- <-]. exact (H _ _ eq_refl).
Qed.
Lemma stripped_iff s t : stripped s t <-> trim s = t.
Proof. split; [intro H; symmetry; apply stripped_unique, H|intros <-; apply stripped_trim]. Qed.
Lemma blank_iff s : blank s <-> trim s = [].
Proof.
  rewrite <- stripped_iff. split.
  - intro B. exists s, []. cbn. rewrite app_nil_r. repeat split; try assumption; [constructor|discriminate|].
    intros c r E. destruct r; discriminate.
  - intros (a & b & -> & B & B' & _). apply Forall_app. split; assumption.
Qed.
Lemma capital_iff c d : capital c d <-> upper c = d.
Proof.
  unfold capital, upper. destruct ((97 <=? c) && (c <=? 122)) eqn:E.
  - apply andb_true_iff in E as [E1 E2]. apply Nat.leb_le in E1, E2. lia.
  - assert (~ 97 <= c <= 122). { intros [H1 H2]. apply Nat.leb_le in H1, H2. rewrite H1, H2 in E. discriminate. }
    intuition.
Qed.
Lemma spells_iff t w : spells t w <-> to_uppercase t = lit w.
Proof.
  unfold spells, to_uppercase. generalize (lit w) as l. clear w. induction t as [|c t IH]; intros [|d l]; cbn; split; intro H; try inversion H; subst.
  - reflexivity.
  - constructor.
  - f_equal; [apply capital_iff; assumption|apply IH; assumption].
  - constructor; [apply capital_iff; reflexivity|apply IH; reflexivity].
Qed.
Lemma reads_iff s w : reads s w <-> to_uppercase (trim s) = lit w.
Proof.
  unfold reads. split.
  - intros (t & H & E). apply stripped_iff in H as ->. apply spells_iff, E.
  - intro E. exists (trim s). split; [apply stripped_trim|apply spells_iff, E].
Qed.
Lemma reads_eqb s w : str_eqb (to_uppercase (trim s)) (lit w) = true <-> reads s w.
Proof. rewrite str_eqb_eq, reads_iff. reflexivity. Qed.
Lemma upper_nil s : to_uppercase (trim s) = [] <-> blank s.
Proof. rewrite blank_iff. destruct (trim s); cbn; split; congruence. Qed.

(** ** splitting *)
Lemma split_at_cons d s : exists p ps, split_at d s = p :: ps.
Proof.
  induction s as [|c s (p & ps & E)]; cbn; [eauto|].
  destruct (Nat.eqb c d); [eauto|]. rewrite E. eauto.
Qed.
Lemma split_at_app d p s : ~ In d p -> split_at d (p ++ d :: s) = p :: split_at d s.
Proof.
  induction p as [|c p IH]; cbn; intro H.
  - rewrite Nat.eqb_refl. reflexivity.
  - destruct (Nat.eqb_spec c d) as [->|N]; [exfalso; apply H; left; reflexivity|].
    rewrite IH by (intro; apply H; right; assumption). reflexivity.
Qed.
Lemma split_at_whole d p : ~ In d p -> split_at d p = [p].
Proof.
  induction p as [|c p IH]; cbn; intro H; [reflexivity|].
  destruct (Nat.eqb_spec c d) as [->|N]; [exfalso; apply H; left; reflexivity|].
  rewrite IH by (intro; apply H; right; assumption). reflexivity.
Qed.
(** every text is a piece without the delimiter, alone or before one *)
Lemma at_delimiter d (s : str) : ~ In d s \/ exists p r, s = p ++ d :: r /\ ~ In d p.
Proof.
  induction s as [|c s [H|(p & r & -> & H)]]; [left; intros []| |].
  - destruct (Nat.eq_dec c d) as [->|N]; [right; exists [], s; split; [reflexivity|intros []]|].
    left. intros [E|I]; [exact (N E)|exact (H I)].
  - destruct (Nat.eq_dec c d) as [->|N]; [right; exists [], (p ++ d :: r); split; [reflexivity|intros []]|].
    right. exists (c :: p), r. split; [reflexivity|]. intros [E|I]; [exact (N E)|exact (H I)].
Qed.
Lemma drop_cons p ps : ps <> [] -> drop_last_empty (p :: ps) = p :: drop_last_empty ps.
Proof. destruct p, ps; cbn; congruence. Qed.
Lemma pieces_iff d s l : pieces d s l <-> split_terminator d s = l.
Proof.
  unfold split_terminator. split.
  - induction 1 as [|p N H|p rest l H P IH]; [reflexivity| |].
    + rewrite split_at_whole by exact H. destruct p; [congruence|reflexivity].
    + rewrite split_at_app by exact H. destruct (split_at_cons d rest) as (q & qs & E).
      rewrite E in *. rewrite drop_cons by discriminate. rewrite IH. reflexivity.
  - remember (length s) as n eqn:En. revert s l En. induction n as [n IH] using lt_wf_ind. intros s l ->.
    destruct (at_delimiter d s) as [H|(p & r & -> & H)].
    + rewrite split_at_whole by exact H. intros <-. destruct s as [|c s]; [constructor|]. apply pieces_last; [discriminate|exact H].
    + rewrite split_at_app by exact H. destruct (split_at_cons d r) as (q & qs & E). rewrite E, drop_cons by discriminate.
      intros <-. apply pieces_more; [exact H|]. rewrite <- E. apply (IH (length r)); [|reflexivity|reflexivity].
      rewrite app_length. cbn. lia.
Qed.
Lemma get_strs_app p s : ~ In 32 p -> get_strs (p ++ 32 :: s) = (if is_nil p then [] else [p]) ++ get_strs s.
Proof. intro H. unfold get_strs. rewrite split_at_app by exact H. cbn. destruct (is_nil p); reflexivity. Qed.
Lemma get_strs_whole p : ~ In 32 p -> get_strs p = if is_nil p then [] else [p].
Proof. intro H. unfold get_strs. rewrite split_at_whole by exact H. cbn. destruct (is_nil p); reflexivity. Qed.
Lemma get_strs_space s : get_strs (32 :: s) = get_strs s.
Proof. exact (get_strs_app [] s (fun H => H)). Qed.
Lemma get_strs_spaces a s : Forall (eq 32) a -> get_strs (a ++ s) = get_strs s.
Proof. induction 1 as [|c a <- B IH]; [reflexivity|]. cbn [app]. rewrite get_strs_space. exact IH. Qed.
Lemma words_space s l : words s l -> words (32 :: s) l.
Proof.
  destruct 1 as [s H|a w rest l Ha Hw Hn Hr H].
  - constructor. constructor; [reflexivity|exact H].
  - apply (words_more (32 :: a) w rest l); try assumption. constructor; [reflexivity|exact Ha].
Qed.
Lemma words_iff s l : words s l <-> get_strs s = l.
Proof.
  split.
  - induction 1 as [s H|a w rest l Ha Hw Hn Hr H IH].
    + rewrite <- (app_nil_r s), get_strs_spaces by exact H. reflexivity.
    + rewrite get_strs_spaces by exact Ha. destruct Hr as [->|[r ->]].
      * rewrite app_nil_r, get_strs_whole by exact Hn. destruct w; [congruence|]. cbn in *. rewrite <- IH. reflexivity.
      * rewrite get_strs_app by exact Hn. rewrite get_strs_space in IH. rewrite IH. destruct w; [congruence|reflexivity].
  - remember (length s) as n eqn:En. revert s l En. induction n as [n IH] using lt_wf_ind. intros s l ->.
    destruct (at_delimiter 32 s) as [H|(p & r & -> & H)].
    + rewrite get_strs_whole by exact H. intros <-. destruct s as [|c s]; [constructor; constructor|].
      cbn. rewrite <- (app_nil_r (c :: s)) at 1. apply (words_more [] (c :: s) [] []); [constructor|discriminate|exact H|left; reflexivity|constructor; constructor].
    + rewrite get_strs_app by exact H. assert (W : words r (get_strs r)).
      { apply (IH (length r)); [|reflexivity|reflexivity]. rewrite app_length. cbn. lia. }
      intros <-. destruct p as [|c p]; cbn [is_nil app].
      * apply words_space, W.
      * apply (words_more [] (c :: p) (32 :: r) (get_strs r)); [constructor|discriminate|exact H|right; eauto|apply words_space, W].
Qed.

(** ** columns *)
Lemma column_spec name r : forall idx found,
  match column (lit name) idx found r with
  | Some i => (i < idx \/ idx + length r <= i) /\ found = Some i /\ (forall j c, nth_error r j = Some c -> ~ reads c name) \/
              exists k, i = idx + k /\ heads r name k
  | None => found = None /\ (forall j c, nth_error r j = Some c -> ~ reads c name)
  end \/ (exists i, found = Some i /\ idx <= i < idx + length r).
Proof.
  induction r as [|c r IH]; intros idx found.
  - cbn. left. destruct found as [i|]; [|split; [reflexivity|intros [|j]; discriminate]].
    left. split; [lia|]. split; [reflexivity|]. intros [|j]; discriminate.
  - destruct found as [f|]; [destruct (le_lt_dec idx f); [destruct (le_lt_dec (idx + length (c :: r)) f)|]|].
    2: { right. exists f. split; [reflexivity|lia]. }
    all: left; cbn [column]; specialize (IH (S idx)); destruct (str_eqb (to_uppercase (trim c)) (lit name)) eqn:E.
    all: try (apply reads_eqb in E; specialize (IH (Some idx)); destruct IH as [IH|(i & [= <-] & B)]; [|exfalso; lia];
      destruct (column (lit name) (S idx) (Some idx) r) as [i|]; [|destruct IH; discriminate];
      right; destruct IH as [(_ & [= ->] & N)|(k & -> & (x & Ex & Rx) & L)];
      [exists 0; split; [lia|]; split; [exists c; split; [reflexivity|exact E]|]; intros [|j] x Hj Ex; [lia|exact (N j x Ex)]
      |exists (S k); split; [lia|]; split; [exists x; split; assumption|]; intros [|j] y Hj Ey; [lia|apply (L j y); [lia|exact Ey]]]).
    all: assert (E' : ~ reads c name) by (rewrite <- reads_eqb, E; discriminate).
    + specialize (IH (Some f)). destruct IH as [IH|(i & [= <-] & B)]; [|exfalso; cbn in *; lia].
      destruct (column (lit name) (S idx) (Some f) r) as [i|]; [|destruct IH; discriminate].
      destruct IH as [(B & [= ->] & N)|(k & -> & (x & Ex & Rx) & L)].
      * left. split; [cbn in *; lia|]. split; [reflexivity|]. intros [|j] y Ey; cbn in Ey; [injection Ey as <-; exact E'|exact (N j y Ey)].
      * right. exists (S k). split; [lia|]. split; [exists x; split; assumption|]. intros [|j] y Hj Ey; [lia|apply (L j y); [lia|exact Ey]].
    + specialize (IH (Some f)). destruct IH as [IH|(i & [= <-] & B)]; [|exfalso; cbn in *; lia].
      destruct (column (lit name) (S idx) (Some f) r) as [i|]; [|destruct IH; discriminate].
      destruct IH as [(B & [= ->] & N)|(k & -> & (x & Ex & Rx) & L)].
      * left. split; [cbn in *; lia|]. split; [reflexivity|]. intros [|j] y Ey; cbn in Ey; [injection Ey as <-; exact E'|exact (N j y Ey)].
      * right. exists (S k). split; [lia|]. split; [exists x; split; assumption|]. intros [|j] y Hj Ey; [lia|apply (L j y); [lia|exact Ey]].
    + specialize (IH None). destruct IH as [IH|(i & H & _)]; [|discriminate].
      destruct (column (lit name) (S idx) None r) as [i|].
      * destruct IH as [(_ & H & _)|(k & -> & (x & Ex & Rx) & L)]; [discriminate|].
        right. exists (S k). split; [lia|]. split; [exists x; split; assumption|]. intros [|j] y Hj Ey; [lia|apply (L j y); [lia|exact Ey]].
      * destruct IH as [_ N]. split; [reflexivity|]. intros [|j] y Ey; cbn in Ey; [injection Ey as <-; exact E'|exact (N j y Ey)].
Qed.
Lemma heads_unique hr name i j : heads hr name i -> heads hr name j -> i = j.
Proof.
  intros ((c & Ec & Rc) & L) ((c' & Ec' & Rc') & L').
  destruct (lt_eq_lt_dec i j) as [[H|H]|H]; [|exact H|]; exfalso; [exact (L _ _ H Ec' Rc')|exact (L' _ _ H Ec Rc)].
Qed.
Lemma column_iff hr name i : column (lit name) 0 None hr = Some i <-> heads hr name i.
Proof.
  pose proof (column_spec name hr 0 None) as H. destruct H as [H|(x & H & _)]; [|discriminate].
  destruct (column (lit name) 0 None hr) as [k|].
  - destruct H as [(_ & H & _)|(j & -> & H)]; [discriminate|]. cbn. split; [intros [= <-]; exact H|intro H'; f_equal; exact (heads_unique _ _ _ _ H H')].
  - destruct H as [_ N]. split; [discriminate|]. intros ((c & Ec & Rc) & _). exfalso. exact (N _ _ Ec Rc).
Qed.
Lemma entry_iff hr name r o : entry hr name r o <-> cell (column (lit name) 0 None hr) r = o.
Proof.
  unfold entry, cell. destruct (column (lit name) 0 None hr) as [i|] eqn:E.
  - apply column_iff in E. destruct o as [c|]; split.
    + intros (j & H & Ec). rewrite (heads_unique _ _ _ _ E H). exact Ec.
    + intro Ec. exists i. split; assumption.
    + intro H. exact (H _ E).
    + intros Ec j H. rewrite (heads_unique _ _ _ _ H E). exact Ec.
  - assert (N : forall i, ~ heads hr name i). { intros i H. apply column_iff in H. congruence. }
    destruct o as [c|]; split; try discriminate; [intros (i & H & _); exfalso; exact (N _ H)|reflexivity|intros _ i H; exfalso; exact (N _ H)].
Qed.
Lemma ex_entry hr name r (P : option str -> Prop) : (exists o, entry hr name r o /\ P o) <-> P (cell (column (lit name) 0 None hr) r).
Proof.
  split; [intros (o & E & H); apply entry_iff in E as ->; exact H|intro H; eexists; split; [apply entry_iff; reflexivity|exact H]].
Qed.

(** ** fields *)
Lemma parse_boolean_iff c b : parse_boolean c = Ok b <-> says_bool (Some c) (Some b).
Proof.
  assert (Y : yes c <-> let u := to_uppercase (trim c) in u = lit "YES" \/ u = lit "TRUE" \/ u = lit "1") by (unfold yes; rewrite !reads_iff; reflexivity).
  assert (N : no c <-> let u := to_uppercase (trim c) in u = lit "" \/ u = lit "NO" \/ u = lit "FALSE" \/ u = lit "0") by (unfold no; rewrite <- upper_nil, !reads_iff; reflexivity).
  unfold parse_boolean. destruct b; cbn [says_bool]; [rewrite Y|rewrite N]; cbv zeta; set (u := to_uppercase (trim c)); cbn [existsb]; clear; split.
  - destruct (str_eqb u (lit "") || _) eqn:E; [discriminate|]. destruct (str_eqb u (lit "YES") || _) eqn:E'; [|discriminate].
    intros _. rewrite !orb_true_iff, !str_eqb_eq in E'. intuition congruence.
  - intros [->|[->| ->]]; reflexivity.
  - destruct (str_eqb u (lit "") || _) eqn:E; [|destruct (str_eqb u (lit "YES") || _); discriminate].
    intros _. rewrite !orb_true_iff, !str_eqb_eq in E. intuition congruence.
  - intros [->|[->|[->| ->]]]; reflexivity.
Qed.
Lemma read_bool_iff i r v : read_bool i r = Ok v <-> says_bool (cell i r) v.
Proof.
  unfold read_bool. destruct (cell i r) as [c|]; [|cbn; destruct v; split; intro H; try discriminate H; try destruct H; reflexivity || exact Logic.I].
  destruct v as [b|].
  - rewrite <- parse_boolean_iff. destruct (parse_boolean c) as [x| |]; cbn; split; congruence.
  - cbn. destruct (parse_boolean c) as [x| |]; cbn; split; intro H; try discriminate H; destruct H.
Qed.
Lemma parse_node_type_iff w b : parse_node_type w = Ok b <-> names_kind w b.
Proof.
  unfold parse_node_type, names_kind. pose proof (spells_iff w) as SP. set (u := to_uppercase w) in *. clearbody u. cbn [existsb].
  split.
  - destruct (str_eqb u (lit "URI") || _) eqn:E.
    { intros [= <-]. rewrite !orb_true_iff, !str_eqb_eq in E. rewrite !SP. intuition congruence. }
    destruct (str_eqb u (lit "BNODE")) eqn:E1; [intros [= <-]; apply SP, str_eqb_eq, E1|].
    destruct (str_eqb u (lit "LITERAL")) eqn:E2; [intros [= <-]; apply SP, str_eqb_eq, E2|discriminate].
  - destruct b; [intros [H|H]|intros H|intros H]; apply SP in H; rewrite H; reflexivity.
Qed.
Definition kinds_of (cur : list basic) : option nodetype := match cur with [] => None | [b] => Some (NBasic b) | _ => Some (NOr cur) end.
Lemma node_types_iff ws : forall cur v, node_types ws (kinds_of cur) = Ok v <-> exists bs, Forall2 names_kind ws bs /\ v = kinds_of (cur ++ bs).
Proof.
  induction ws as [|w ws IH]; intros cur v; cbn [node_types].
  - split.
    + intros [= <-]. exists []. rewrite app_nil_r. split; [constructor|reflexivity].
    + intros (bs & H & ->). inversion H. rewrite app_nil_r. reflexivity.
  - assert (N : forall b, Some (match kinds_of cur with Some t => merge_node_type t b | None => NBasic b end) = kinds_of (cur ++ [b])).
    { intro b. destruct cur as [|x [|y cur]]; reflexivity. }
    split.
    + destruct (parse_node_type w) as [b| |] eqn:E; cbn [bind]; try discriminate. rewrite N. intro H. apply IH in H as (bs & H & ->).
      exists (b :: bs). split; [constructor; [apply parse_node_type_iff, E|exact H]|]. rewrite <- app_assoc. reflexivity.
    + intros (bs & H & ->). inversion H as [|? b ? bs' Hb Hbs]; subst. apply parse_node_type_iff in Hb. rewrite Hb. cbn [bind].
      rewrite N. apply IH. exists bs'. split; [exact Hbs|]. rewrite <- app_assoc. reflexivity.
Qed.
Lemma strip_iff c v : strip_whitespace c = v <-> says_text (Some c) v.
Proof.
  unfold strip_whitespace. cbn [says_text]. destruct v as [t|].
  - rewrite stripped_iff. destruct (trim c) as [|x u]; split; intro H; try discriminate H.
    + destruct H as [H N]. congruence.
    + injection H as <-. split; [reflexivity|discriminate].
    + destruct H as [H N]. rewrite H. reflexivity.
  - rewrite blank_iff. destruct (trim c); split; congruence.
Qed.
Lemma strip_text o v : match o with Some s => strip_whitespace s | None => None end = v <-> says_text o v.
Proof. destruct o as [c|]; [apply strip_iff|]. destruct v; cbn; split; intro H; try discriminate H; try destruct H; reflexivity || exact Logic.I. Qed.

Section Rows.
  Variable hr : row.
  Variable d : nat.
  Notation h := (from_record hr).

  Lemma kinds_right r v : read_nodetype h r = Ok v <-> says_kinds (cell (h_nodetype h) r) v.
  Proof.
    unfold read_nodetype, says_kinds. destruct (cell (h_nodetype h) r) as [c|]; [|split; congruence].
    change None with (kinds_of []) at 1. rewrite node_types_iff. split.
    - intros (bs & H & ->). exists (get_strs c), bs. split; [apply words_iff; reflexivity|]. split; [exact H|]. destruct bs as [|? []]; reflexivity.
    - intros (ws & bs & W & H & ->). apply words_iff in W as <-. exists bs. split; [exact H|]. destruct bs as [|? []]; reflexivity.
  Qed.
  Lemma datatypes_right r v : read_datatypes h r = v <-> says_datatypes (cell (h_datatype h) r) v.
  Proof.
    unfold read_datatypes, says_datatypes. destruct (cell (h_datatype h) r) as [c|]; [|split; congruence].
    assert (E : match strip_whitespace c with Some t => get_strs t | None => [] end = get_strs (trim c)).
    { unfold strip_whitespace. destruct (trim c); reflexivity. }
    rewrite E. split.
    - intros <-. exists (trim c). split; [apply stripped_trim|apply words_iff; reflexivity].
    - intros (t & S & W). apply stripped_iff in S as ->. apply words_iff, W.
  Qed.
  Lemma value_shape_right r v : read_value_shape h r = v <-> says_text (cell (h_value_shape h) r) v.
  Proof. apply strip_text. Qed.
  Lemma one_line_iff t u : Forall2 on_one_line t u <-> map (fun c => if Nat.eqb c 10 then 32 else c) t = u.
  Proof.
    revert u. induction t as [|c t IH]; intros [|x u]; cbn [map]; split; intro H; try inversion H; subst; try constructor.
    - f_equal; [|apply IH; assumption]. destruct (Nat.eqb_spec c 10); unfold on_one_line in *; lia.
    - destruct (Nat.eqb_spec c 10); unfold on_one_line; lia.
    - apply IH. reflexivity.
  Qed.
  Lemma label_right r v : read_property_label h r = v <-> says_label (cell (h_property_label h) r) v.
  Proof.
    unfold read_property_label, says_label. destruct (cell (h_property_label h) r) as [c|].
    - split.
      + intros <-. exists (strip_whitespace c). split; [apply strip_iff; reflexivity|]. destruct (strip_whitespace c) as [t|]; [apply one_line_iff; reflexivity|exact Logic.I].
      + intros (t & S & H). apply strip_iff in S as ->. destruct t as [t|], v as [u|]; try contradiction; [apply one_line_iff in H; rewrite H; reflexivity|reflexivity].
    - split.
      + intros <-. exists None. split; exact Logic.I.
      + intros ([t|] & S & H); [contradiction S|]. destruct v; [contradiction|reflexivity].
  Qed.
  Lemma note_iff o v : match o with Some s => if is_nil s then None else Some s | None => None end = v <-> says_note o v.
  Proof.
    unfold says_note. destruct o as [c|]; [|split; intro H; symmetry; exact H].
    destruct c as [|x c]; cbn [is_nil]; split.
    - intros <-. left. split; reflexivity.
    - intros [[_ ->]|[N _]]; [reflexivity|]. exfalso. apply N. reflexivity.
    - intros <-. right. split; [discriminate|reflexivity].
    - intros [[N _]|[_ ->]]; [discriminate N|reflexivity].
  Qed.
  Definition good_constraint (r : row) : Prop :=
    forall c, entry hr "VALUECONSTRAINT" r (Some c) -> blank c -> c = [] /\ (forall t, entry hr "VALUECONSTRAINTTYPE" r t -> ~ patterned t).
  Lemma ctype_spec r :
    match read_constraint_type h r with
    | CPickList => listed (cell (h_constraint_type h) r) /\ ~ patterned (cell (h_constraint_type h) r)
    | CPattern => patterned (cell (h_constraint_type h) r) /\ ~ listed (cell (h_constraint_type h) r)
    | COther => ~ listed (cell (h_constraint_type h) r) /\ ~ patterned (cell (h_constraint_type h) r)
    end.
  Proof.
    unfold read_constraint_type. destruct (cell (h_constraint_type h) r) as [c|]; [|cbn; tauto].
    cbn [listed patterned]. pose proof (blank_iff c) as BL. pose proof (reads_iff c) as RD.
    unfold strip_whitespace. destruct (trim c) as [|x t].
    { split; [left; apply BL; reflexivity|]. rewrite RD. discriminate. }
    assert (NB : ~ blank c) by (rewrite BL; discriminate). clear BL.
    set (u := to_uppercase (x :: t)) in *. clearbody u.
    destruct (str_eqb u (lit "PICKLIST")) eqn:E1; [apply str_eqb_eq in E1; split; [right; apply RD, E1|rewrite RD, E1; discriminate]|].
    destruct (str_eqb u (lit "PATTERN")) eqn:E2; [apply str_eqb_eq in E2; split; [apply RD, E2|intros [H|H]; [exact (NB H)|apply RD in H; rewrite E2 in H; discriminate H]]|].
    assert (N1 : u <> lit "PICKLIST") by (rewrite <- str_eqb_eq, E1; discriminate).
    assert (N2 : u <> lit "PATTERN") by (rewrite <- str_eqb_eq, E2; discriminate).
    split; [intros [H|H]; [exact (NB H)|exact (N1 (proj1 (RD _) H))]|intro H; exact (N2 (proj1 (RD _) H))].
  Qed.
  Lemma constraint_right r v : good_constraint r ->
    (read_constraint d h r = v <-> says_constraint d (cell (h_constraint h) r) (cell (h_constraint_type h) r) v).
  Proof.
    intro G. unfold read_constraint, says_constraint. destruct (cell (h_constraint h) r) as [c|] eqn:Ec; [|split; congruence].
    pose proof (ctype_spec r) as T.
    assert (G' : blank c -> c = [] /\ ~ patterned (cell (h_constraint_type h) r)).
    { intro B. destruct (G c) as [-> N]; [apply entry_iff, Ec|exact B|]. split; [reflexivity|]. apply N, entry_iff. reflexivity. }
    destruct (blank_dec c) as [B|NB].
    - destruct (G' B) as [-> NP]. destruct (read_constraint_type h r); [|tauto|]; (split; [intros <-; repeat split; tauto|intros [H _]; symmetry; exact (H B)]).
    - destruct (read_constraint_type h r).
      + destruct T as [T1 T2]. split.
        * intros <-. split; [tauto|]. split; [|tauto]. intros _ _. exists (split_terminator d c). split; [apply pieces_iff; reflexivity|].
          destruct (split_terminator d c) eqn:E; [|reflexivity]. apply pieces_iff in E. exfalso. inversion E; subst. apply NB. constructor.
        * intros (_ & H & _). destruct (H NB T1) as (l & P & ->). assert (l <> []). { intros ->. inversion P; subst. apply NB. constructor. }
          apply pieces_iff in P. rewrite P. destruct l; [congruence|reflexivity].
      + destruct T as [T1 T2]. split; [intros <-; repeat split; tauto|]. intros (_ & _ & H & _). symmetry. exact (H NB T1).
      + destruct T as [T1 T2]. split; [intros <-; repeat split; tauto|]. intros (_ & _ & _ & H). symmetry. exact (H T1 T2).
  Qed.

  Definition good_row (r : row) : Prop := (forall c, entry hr "PROPERTYID" r (Some c) -> blank c -> c = []) /\ good_constraint r.
  Lemma property_right r ids v : good_row r -> (get_property_id [] None h r ids = (v, ids) <-> says_text (cell (h_property h) r) v).
  Proof.
    intros [G _]. unfold get_property_id. destruct (cell (h_property h) r) as [c|] eqn:Ec.
    - assert (G' : blank c -> c = []) by (intro B; apply G; [apply entry_iff, Ec|exact B]).
      destruct c as [|x c]; cbn [is_nil assoc].
      + assert (E : match cell (h_property_label h) r with Some l => if is_nil l then (None, ids) else (None, ids) | None => (None, ids) end = (@None str, ids)).
        { destruct (cell (h_property_label h) r) as [[]|]; reflexivity. }
        rewrite E. destruct v as [t|]; cbn [says_text]; split; intro H; try discriminate; try reflexivity; [|constructor].
        exfalso. destruct H as [H N]. apply stripped_iff in H. apply N. rewrite <- H. reflexivity.
      + destruct v as [t|]; cbn [says_text]; split; intro H.
        * injection H as <-. split; [apply stripped_trim|]. intro E. apply blank_iff in E. discriminate (G' E).
        * destruct H as [H _]. apply stripped_iff in H as <-. reflexivity.
        * discriminate.
        * discriminate (G' H).
    - destruct v as [t|]; cbn [says_text]; split; intro H; try discriminate; try contradiction; reflexivity.
  Qed.
  Lemma property_ids r ids : snd (get_property_id [] None h r ids) = ids.
  Proof.
    unfold get_property_id. destruct (cell (h_property h) r) as [c|]; [|reflexivity].
    destruct (is_nil c); [|reflexivity]. destruct (cell (h_property_label h) r) as [l|]; [|reflexivity]. destruct (is_nil l); reflexivity.
  Qed.
  Lemma says_iff r st : good_row r ->
    (says hr d r st <-> read_property_label h r = s_label st /\ read_bool (h_mandatory h) r = Ok (s_mandatory st) /\
       read_bool (h_repeatable h) r = Ok (s_repeatable st) /\ read_nodetype h r = Ok (s_nodetype st) /\ read_datatypes h r = s_datatypes st /\
       read_value_shape h r = s_value_shape st /\ read_constraint d h r = s_constraint st /\ read_note h r = s_note st).
  Proof.
    intros [_ G]. unfold says. rewrite !ex_entry.
    assert (C : (exists o t, entry hr "VALUECONSTRAINT" r o /\ entry hr "VALUECONSTRAINTTYPE" r t /\ says_constraint d o t (s_constraint st)) <->
                read_constraint d h r = s_constraint st).
    { rewrite (constraint_right r _ G). split.
      - intros (o & t & E & E' & H). apply entry_iff in E, E'. cbn [h_constraint h_constraint_type from_record]. rewrite E, E'. exact H.
      - intro H. eexists. eexists. split; [apply entry_iff; reflexivity|]. split; [apply entry_iff; reflexivity|exact H]. }
    rewrite C, label_right, !read_bool_iff, kinds_right, datatypes_right, value_shape_right. unfold read_note. rewrite note_iff.
    reflexivity.
  Qed.
  Lemma states_iff r ids o : good_row r -> (states hr d r o <-> record2statement d [] None h r ids = Ok (o, ids)).
  Proof.
    intro G. unfold states. rewrite (ex_entry hr "PROPERTYID" r (fun p => match o with None => says_text p None | Some st => says_text p (Some (s_property st)) /\ says hr d r st end)).
    change (column (lit "PROPERTYID") 0 None hr) with (h_property h). unfold record2statement.
    pose proof (property_ids r ids) as I. destruct (get_property_id [] None h r ids) as [p ids'] eqn:E. cbn in I. subst ids'.
    assert (P : forall v, says_text (cell (h_property h) r) v <-> p = v).
    { intro v. rewrite <- (property_right r ids v G), E. split; [congruence|intros ->; reflexivity]. }
    destruct o as [st|].
    - rewrite P, (says_iff r st G). split.
      + intros (-> & E1 & E2 & E3 & E4 & E5 & E6 & E7 & E8). rewrite E2, E3, E4. cbn [bind]. rewrite E1, E5, E6, E7, E8. destruct st; reflexivity.
      + destruct p as [p|]; [|discriminate].
        destruct (read_bool (h_mandatory h) r) as [m| |]; cbn [bind]; try discriminate.
        destruct (read_bool (h_repeatable h) r) as [rp| |]; cbn [bind]; try discriminate.
        destruct (read_nodetype h r) as [nt| |]; cbn [bind]; try discriminate.
        intros [= <-]. cbn. repeat split; reflexivity.
    - rewrite P. split; [intros ->; reflexivity|].
      destruct p as [p|]; [|reflexivity].
      destruct (read_bool (h_mandatory h) r) as [m| |]; cbn [bind]; try discriminate.
      destruct (read_bool (h_repeatable h) r) as [rp| |]; cbn [bind]; try discriminate.
      destruct (read_nodetype h r) as [nt| |]; cbn [bind]; discriminate.
  Qed.

  Lemma record_ids r ids x ids' : record2statement d [] None h r ids = Ok (x, ids') -> ids' = ids.
  Proof.
    unfold record2statement. pose proof (property_ids r ids) as I. destruct (get_property_id [] None h r ids) as [p j]. cbn in I. subst j.
    destruct p as [p|]; [|congruence].
    destruct (read_bool (h_mandatory h) r) as [m| |]; cbn [bind]; try discriminate.
    destruct (read_bool (h_repeatable h) r) as [rp| |]; cbn [bind]; try discriminate.
    destruct (read_nodetype h r) as [nt| |]; cbn [bind]; congruence.
  Qed.
  Definition with_statements (s : tapshape) (l : list statement) : tapshape := mkTapshape (t_id s) (t_label s) (t_statements s ++ l) (t_extends s).
  Lemma add_row_iff r s ids s' ids' : good_row r ->
    (add_row d [] None h r s ids = Ok (s', ids') <-> exists o, states hr d r o /\ s' = with_statements s (somes [o]) /\ ids' = ids).
  Proof.
    intro G. unfold add_row. split.
    - destruct (record2statement d [] None h r ids) as [[o j]| |] eqn:E; cbn [bind]; try discriminate. intros [= <- <-].
      pose proof (record_ids _ _ _ _ E) as ->. exists o. split; [apply (states_iff r ids o G), E|]. split; [|reflexivity].
      destruct o as [st|]; [reflexivity|]. unfold with_statements. cbn. rewrite app_nil_r. destruct s; reflexivity.
    - intros (o & H & -> & ->). apply (states_iff r ids o G) in H. rewrite H. cbn [bind]. f_equal. f_equal.
      destruct o as [st|]; [reflexivity|]. unfold with_statements. cbn. rewrite app_nil_r. destruct s; reflexivity.
  Qed.
  Lemma with_with s l l' : with_statements (with_statements s l) l' = with_statements s (l ++ l').
  Proof. unfold with_statements. cbn. rewrite app_assoc. reflexivity. Qed.

  (** ** rows of a shape *)
  Lemma shape_id_iff r i : get_shape_id h r = Some i <-> id_of hr r i.
  Proof.
    unfold get_shape_id, id_of. split.
    - destruct (cell (h_shape h) r) as [c|] eqn:E; [|discriminate]. intros [= <-]. exists c. split; [apply entry_iff, E|apply stripped_trim].
    - intros (c & E & H). apply entry_iff in E. apply stripped_iff in H as <-. change (h_shape h) with (column (lit "SHAPEID") 0 None hr). rewrite E. reflexivity.
  Qed.
  Lemma same_iff i r j : id_of hr r j -> (same_shape_id (Some i) (get_shape_id h r) = true <-> j = [] \/ j = i).
  Proof.
    intro H. apply shape_id_iff in H. rewrite H. cbn. rewrite orb_true_iff, is_nil_true, str_eqb_eq. intuition congruence.
  Qed.
  Definition has_id (r : row) : Prop := exists i, id_of hr r i.
  Definition waiting (c : option row) : list row := match c with Some r => [r] | None => [] end.
  Lemma more_rows_iff i rows : Forall good_row rows -> Forall has_id rows -> forall s ids c rest s' ids',
    more_rows d [] None h (Some i) rows s ids = Ok (c, rest, s', ids') <->
    exists taken os, rows = taken ++ waiting c ++ rest /\ (c = None -> rest = []) /\
      Forall (fun x => exists j, id_of hr x j /\ (j = [] \/ j = i)) taken /\
      (forall r, c = Some r -> exists k, id_of hr r k /\ k <> [] /\ k <> i) /\
      Forall2 (states hr d) taken os /\ s' = with_statements s (somes os) /\ ids' = ids.
  Proof.
    induction rows as [|r rows IH]; intros G HI s ids c rest s' ids'; cbn [more_rows].
    - split.
      + intros [= <- <- <- <-]. exists [], []. repeat split; try constructor; [discriminate|]. unfold with_statements. cbn. rewrite app_nil_r. destruct s; reflexivity.
      + intros (taken & os & E & N & _ & _ & F & -> & ->). destruct taken; [|discriminate]. inversion F; subst. destruct c; [discriminate|]. cbn in E. subst rest.
        unfold with_statements. cbn. rewrite app_nil_r. destruct s; reflexivity.
    - inversion G as [|? ? G1 G2]; inversion HI as [|? ? [j Hj] HI2]; subst. specialize (IH G2 HI2).
      pose proof (same_iff i r j Hj) as SI. destruct (same_shape_id (Some i) (get_shape_id h r)).
      + split.
        * destruct (add_row d [] None h r s ids) as [[s1 ids1]| |] eqn:EA; cbn [bind]; try discriminate. intro H.
          apply (add_row_iff r s ids s1 ids1 G1) in EA as (o & So & -> & ->).
          apply IH in H as (taken & os & -> & N & FT & FC & F & -> & ->).
          exists (r :: taken), (o :: os). split; [reflexivity|]. split; [exact N|]. split; [constructor; [exists j; split; [exact Hj|apply SI; reflexivity]|exact FT]|].
          split; [exact FC|]. split; [constructor; assumption|]. split; [|reflexivity]. rewrite with_with. f_equal. unfold somes. cbn. rewrite app_nil_r. reflexivity.
        * intros (taken & os & E & N & FT & FC & F & -> & ->).
          destruct taken as [|x taken].
          { exfalso. destruct c as [y|]; cbn in E; [|rewrite (N eq_refl) in E; discriminate]. injection E as <- <-.
            destruct (FC _ eq_refl) as (k & Hk & N1 & N2). apply shape_id_iff in Hk, Hj. rewrite Hk in Hj. injection Hj as <-.
            destruct (proj1 SI eq_refl); congruence. }
          cbn in E. injection E as <- ->. inversion F as [|? o ? os' Ho Hos]; subst. inversion FT; subst.
          assert (EA : add_row d [] None h r s ids = Ok (with_statements s (somes [o]), ids)) by (apply (add_row_iff r s ids _ _ G1); eauto).
          rewrite EA. cbn [bind]. apply IH. exists taken, os'. repeat split; try assumption.
          rewrite with_with. f_equal. unfold somes. cbn. rewrite app_nil_r. reflexivity.
      + assert (NS : ~ (j = [] \/ j = i)) by (rewrite <- SI; discriminate). split.
        * intros [= <- <- <- <-]. exists [], []. split; [reflexivity|]. split; [discriminate|]. split; [constructor|]. split.
          { intros ? [= <-]. exists j. split; [exact Hj|]. tauto. }
          split; [constructor|]. split; [|reflexivity]. unfold with_statements. cbn. rewrite app_nil_r. destruct s; reflexivity.
        * intros (taken & os & E & N & FT & FC & F & -> & ->). destruct taken as [|x taken].
          { inversion F; subst. destruct c as [y|]; cbn in E; [|rewrite (N eq_refl) in E; discriminate]. injection E as <- <-.
            unfold with_statements. cbn. rewrite app_nil_r. destruct s; reflexivity. }
          exfalso. cbn in E. injection E as <- ->. inversion FT as [|? ? (k & Hk & D) _]; subst. apply NS.
          apply shape_id_iff in Hk, Hj. rewrite Hk in Hj. injection Hj as <-. exact D.
  Qed.
End Rows.
