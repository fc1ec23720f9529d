(* C106: the shell reads and changes settings by the keys it names, clears what is asked for and
   nothing else, and offers what can be typed. *)
From Coq Require Import List String Ascii Bool Arith Lia ZArith.
From Verif Require Import RpModel RpSpec RpLemmas.
Import ListNotations.
Open Scope string_scope.

(* A key of `config get` names the value found under its parts. *)
Theorem C106_lookup : forall root key v, proper root ->
  (lookup root key = Some v <-> exists ks, names_path key ks /\ path_to root ks v).
Proof.
  intros root key v Hp. unfold lookup. rewrite (walk_path root (split key) v Hp). split.
  - intros H. exists (split key). split; [now apply names_path_split | assumption].
  - intros (ks & Hn & H). apply names_path_split in Hn as ->. assumption.
Qed.
Print Assumptions C106_lookup.

(* A change is seen under its key, and other keys keep their values. *)
Theorem C106_set_path : forall root key new root', set_path root key new = Some root' ->
  lookup root' key = Some new /\ forall q, apart key q -> lookup root' q = lookup root q.
Proof.
  intros root key new root' H. unfold set_path in H. split.
  - now apply set_walk in H.
  - intros q A. apply apart_split in A as [A B]. unfold lookup. now apply (set_other _ _ _ _ _ H).
Qed.
Print Assumptions C106_set_path.

(* A change is made just when the parts but the last lead to a table. *)
Theorem C106_settable : forall root key new, proper root ->
  ((exists root', set_path root key new = Some root') <->
   exists ks k t, names_path key (ks ++ [k]) /\ path_to root ks (VTab t)).
Proof.
  intros root key new Hp. unfold set_path. destruct (split_cons key) as (h & r & E).
  destruct (@exists_last _ (split key)) as (ks & k & K); [rewrite E; congruence |].
  rewrite K, set_some. split.
  - intros [t H]. exists ks, k, t. split; [now apply names_path_split | now apply walk_path].
  - intros (ks' & k' & t & Hn & H). apply names_path_split in Hn.
    rewrite K in Hn. apply app_inj_tail in Hn as [-> ->]. exists t. now apply walk_path.
Qed.
Print Assumptions C106_settable.

(* The full statement: for every configuration, the keys offered are those that `config get` finds.
   Proved where no key of a table is empty or has a dot. *)
Theorem C106_listed_partial : forall root p, proper root -> plain root ->
  (In p (collect root "") <-> exists v, lookup root p = Some v).
Proof.
  intros root p Hp Hq. rewrite (collect_under root Hq "" p). unfold lookup. split.
  - intros (ks & x & Hn & Hw & ->). exists x. cbn.
    rewrite concat_split by eauto using path_dotless. now apply walk_path.
  - intros [v H]. exists (split p), v. apply walk_path in H; [| assumption].
    split; [destruct (split_cons p) as (h & t & ->); congruence |]. split; [assumption |].
    cbn. now rewrite split_concat.
Qed.
Print Assumptions C106_listed_partial.

Definition tree (name : string) : value :=
  VTab [("base_iri", VStr "http://example.org/");
        ("rdf_data", VTab [("endpoints", VTab [(name, VTab [("query_url", VStr "https://dbpedia.org/sparql")])])])].

Lemma tree_proper n : proper (tree n).
Proof.
  repeat (apply proper_tab;
          [repeat constructor; cbn; intuition discriminate |];
          repeat (apply Forall_cons || apply Forall_nil); cbn [snd]);
    try (apply proper_leaf; intros; discriminate).
Qed.

Lemma tree_plain : plain (tree "dbpedia").
Proof.
  repeat (apply plain_tab;
          [repeat (apply Forall_cons || apply Forall_nil);
           (split; [discriminate | intros H; vm_compute in H; intuition discriminate])
          | repeat (apply Forall_cons || apply Forall_nil); cbn [snd]]);
    try (apply plain_leaf; intros; discriminate).
Qed.

Example C106_met_listed :
  proper (tree "dbpedia") /\ plain (tree "dbpedia") /\
  collect (tree "dbpedia") "" =
    ["base_iri"; "rdf_data"; "rdf_data.endpoints"; "rdf_data.endpoints.dbpedia";
     "rdf_data.endpoints.dbpedia.query_url"] /\
  lookup (tree "dbpedia") "rdf_data.endpoints.dbpedia.query_url" = Some (VStr "https://dbpedia.org/sparql") /\
  apart "base_iri" "rdf_data.endpoints" /\
  set_path (tree "dbpedia") "base_iri.x" (VBool true) = None.
Proof.
  split; [apply tree_proper |]. split; [apply tree_plain |].
  repeat split; try discriminate; intros r; discriminate.
Qed.

(* An endpoint with a dot in its name is offered as a key but not found under it, nor can it be
   changed. *)
Theorem C106_listed_refuted : exists root p, proper root /\
  In p (collect root "") /\ lookup root p = None /\ forall new, set_path root (p ++ ".query_url") new = None.
Proof.
  exists (tree "dbpedia.org"), "rdf_data.endpoints.dbpedia.org".
  split; [apply tree_proper |]. split; [cbn; tauto |]. split; [reflexivity |]. intros new. reflexivity.
Qed.

Section Statements.
Context {L : shell}.

(* `config set` that shows a value has it shown by `config get` from then on; otherwise nothing
   changes. *)
Theorem C106_set : forall c key text c' o, set_config c key text = (c', o) ->
  match o with
  | Shown v => get_config c' key = Shown v
  | _ => c' = c
  end.
Proof.
  intros c key text c' o. unfold set_config, get_config.
  destruct (dump c) as [root|]; [| intros [= <- <-]; reflexivity].
  destruct (set_path root key (scalar text)) as [root'|]; [| intros [= <- <-]; reflexivity].
  destruct (parse root') as [c2|]; [| intros [= <- <-]; reflexivity].
  destruct (dump c2) as [root2|] eqn:E; [| intros [= <- <-]; reflexivity].
  destruct (lookup root2 key) as [v|] eqn:E2; intros [= <- <-]; [| reflexivity].
  now rewrite E, E2.
Qed.

(* `config get` shows the value that the key names, and tells when there is none. *)
Theorem C106_get : forall c root key, dump c = Some root -> proper root ->
  (forall v, get_config c key = Shown v <-> exists ks, names_path key ks /\ path_to root ks v) /\
  (get_config c key = UnknownKey key <-> forall ks v, names_path key ks -> ~ path_to root ks v).
Proof.
  intros c root key D P. pose proof (fun v => C106_lookup root key v P) as H. unfold get_config. rewrite D.
  destruct (lookup root key) as [x|].
  - split.
    + intros v. rewrite <- H. split; congruence.
    + split; [discriminate |]. intros K. destruct (proj1 (H x) eq_refl) as (ks & N & Q). destruct (K ks x N Q).
  - split.
    + intros v. rewrite <- H. split; discriminate.
    + split; [| reflexivity]. intros _ ks v N Q.
      assert (None = Some v) by (apply H; exists ks; auto). discriminate.
Qed.

(* The full statement: for every configuration, a setting that is taken is the one that was given and
   the others stay.  Proved where the configuration read is the one written. *)
Theorem C106_set_partial : (forall r c, parse r = Some c -> dump c = Some r) ->
  forall c key text c' v, set_config c key text = (c', Shown v) ->
  v = scalar text /\ forall q, apart key q -> get_config c' q = get_config c q.
Proof.
  intros F c key text c' v. unfold set_config, get_config.
  destruct (dump c) as [root|]; [| discriminate].
  destruct (set_path root key (scalar text)) as [root'|] eqn:S; [| discriminate].
  destruct (parse root') as [c2|] eqn:P; [| discriminate].
  apply C106_set_path in S as [S O]. rewrite (F _ _ P), S. intros [= <- <-].
  split; [reflexivity |]. intros q A. rewrite (F _ _ P). now rewrite (O q A).
Qed.

(* Texts that are read as such. *)
Theorem C106_scalar_partial : forall s, s <> "true" -> s <> "false" -> i64 s = None -> f64 s = None ->
  scalar s = VStr s.
Proof.
  intros s A B C D. unfold scalar.
  apply String.eqb_neq in A as ->. apply String.eqb_neq in B as ->. now rewrite C, D.
Qed.

(* No text on the line gives the text true, even for a setting that is a text. *)
Theorem C106_scalar_refuted : exists s, forall text, scalar text <> VStr s.
Proof.
  exists "true". intros text H.
  assert (text = "true") as ->.
  { unfold scalar in H. destruct (String.eqb text "true"); [discriminate |].
    destruct (String.eqb text "false"); [discriminate |]. destruct (i64 text); [discriminate |].
    destruct (f64 text); [discriminate |]. now injection H. }
  discriminate.
Qed.

(* `reset` with known targets clears the slots they own and nothing else. *)
Theorem C106_reset : forall ts s, ts <> [] -> Forall a_target ts ->
  exists s', handle_reset ts s = (s', ResetDone ts) /\
    (forall f, (exists t, In t ts /\ owns t f) -> item_of s' f = None) /\
    (forall f, (forall t, In t ts -> ~ owns t f) -> item_of s' f = item_of s f) /\
    prefixes s' = prefixes s /\ settings s' = settings s /\
    (In "endpoint" ts -> active s' = None) /\ (~ In "endpoint" ts -> active s' = active s).
Proof.
  intros ts s Hn A. exists (fold_left (fun s t => reset_target t s) ts s).
  pose proof (proj1 (filter_known ts) A) as E.
  assert (handle_reset ts s = reset_some ts s) as ->.
  { destruct ts as [|t [|u ts]]; [congruence | | reflexivity]. cbn [handle_reset].
    destruct (String.eqb t "all") eqn:K; [| reflexivity]. apply String.eqb_eq in K as ->.
    inversion A as [|? ? [H | [f H]]]; [discriminate | inversion H]. }
  unfold reset_some. rewrite E. split; [reflexivity |].
  destruct (fold_rest ts s) as (P & Q & R).
  split; [intros f H; now apply fold_owned |]. split; [intros f H; now apply fold_kept |].
  repeat split; [assumption | assumption | intros H; now apply fold_endpoint | assumption].
Qed.

(* With a name that is not a target, nothing is cleared and just these names are reported. *)
Theorem C106_reset_unknown : forall ts s, ts <> [] -> ts <> ["all"] -> ~ Forall a_target ts ->
  exists us, handle_reset ts s = (s, UnknownTargets us) /\ forall t, In t us <-> In t ts /\ ~ a_target t.
Proof.
  intros ts s Hn Ha A. exists (filter (fun t => negb (known t)) ts). split.
  - assert (handle_reset ts s = reset_some ts s) as ->.
    { destruct ts as [|t [|u ts]]; [congruence | | reflexivity]. cbn [handle_reset].
      destruct (String.eqb t "all") eqn:K; [| reflexivity]. apply String.eqb_eq in K as ->. congruence. }
    unfold reset_some. destruct (filter (fun t => negb (known t)) ts) as [|u us] eqn:E; [| reflexivity].
    destruct A. now apply filter_known.
  - intros t. rewrite filter_In, negb_true_iff, <- known_target.
    destruct (known t); intuition congruence.
Qed.

(* The full statement: after `reset`, the session is the same as that of a fresh shell.  Proved but
   for the default prefixes and the configuration, which stay as they are. *)
Theorem C106_all_partial : forall args s, args = [] \/ args = ["all"] ->
  handle_reset args s =
    ({| loaded := []; prefixes := prefixes s; settings := settings s; active := None |}, ResetAll).
Proof.
  assert (G : forall s, reset_everything s =
    ({| loaded := []; prefixes := prefixes s; settings := settings s; active := None |}, ResetAll)).
  { intros s. unfold reset_everything, reset_all, clear, activate. cbn [loaded prefixes settings].
    f_equal. f_equal. induction (loaded s) as [|[f x] l IH]; [reflexivity |].
    cbn [filter fst]. rewrite IH. now destruct f. }
  intros args s [-> | ->]; apply G.
Qed.

(* The short form of a line is its long form. *)
Inductive short : string -> string -> Prop :=
| short_s c : In c ["shex"; "shacl"; "pgschema"; "dctap"; "service"; "materialize"; "generate"; "rdf-config"] ->
    short c "-s"
| short_m : short "shapemap" "-m"
| short_n : short "node" "-n"
| short_q : short "sparql" "-q".

Theorem C106_short : forall ex mg c f v s, short c f -> (forall r, v <> "-" ++ r) ->
  dispatch ex mg [c; v] s = dispatch ex mg [c; f; v] s.
Proof.
  intros ex mg c f v s H N.
  assert (P : prefix "-" v = false).
  { destruct v as [|a v]; [reflexivity |]. cbn [prefix]. destruct (ascii_dec "-" a) as [<- | D]; [| reflexivity].
    destruct (N v). reflexivity. }
  destruct H as [c K | | |]; [cbn in K; repeat destruct K as [<- | K]; [.. | destruct K] | | |];
    cbn -[prefix bare]; unfold run_line; cbn -[prefix]; now rewrite P.
Qed.

(* Other lines reach the parser of arguments as they were typed. *)
Theorem C106_long : forall ex mg c a b ts s,
  ~ In c ["endpoint"; "reset"; "prefixes"; "config"; "data"] ->
  dispatch ex mg (c :: a :: b :: ts) s =
    match parse_line (c :: a :: b :: ts) with
    | None => (s, Usage)
    | Some cmd => if is_shell cmd then (s, Already) else ex cmd (if loads cmd then clear [Data] s else s)
    end.
Proof.
  intros ex mg c a b ts s N. cbn in N. unfold dispatch, run_line.
  repeat match goal with
         | |- context [String.eqb c ?x] => let E := fresh in
             destruct (String.eqb c x) eqn:E; [apply String.eqb_eq in E; subst; tauto |]
         end.
  reflexivity.
Qed.

(* `data` without --merge runs as if no data had been loaded before. *)
Theorem C106_replace : forall ex mg args s s' cmd, ~ In "--merge" args ->
  parse_line ("data" :: args) = Some cmd -> is_shell cmd = false -> loads cmd = true ->
  same_but_data s s' -> dispatch ex mg ("data" :: args) s = dispatch ex mg ("data" :: args) s'.
Proof.
  intros ex mg args s s' cmd N P NS Ld (F & Px & Se & Ac).
  assert (T : take_merge ("data" :: args) = (false, "data" :: args)).
  { unfold take_merge. cbn. f_equal.
    - apply not_true_is_false. rewrite existsb_exists. intros (x & Hx & E). apply String.eqb_eq in E as ->. auto.
    - f_equal. clear P. induction args as [|a args IH]; [reflexivity |]. cbn.
      destruct (String.eqb a "--merge") eqn:E.
      + apply String.eqb_eq in E as ->. destruct N. now left.
      + cbn. f_equal. apply IH. intros K. apply N. now right. }
  assert (B : bare ("data" :: args) = "data" :: args).
  { destruct args as [|a [|b r]]; try reflexivity. unfold bare. now destruct (prefix "-" a). }
  cbn -[take_merge bare run_line]. unfold run_line. cbn -[take_merge bare]. rewrite T, B, P, NS, Ld. cbn [negb andb].
  f_equal. unfold clear. rewrite Px, Se, Ac. f_equal.
  assert (G : forall l, filter (fun p : slot * item => negb (existsb (slot_eqb (fst p)) [Data])) l =
                        filter (fun p => negb (slot_eqb (fst p) Data)) l).
  { intros l. apply filter_ext. intros [f x]. cbn. now rewrite orb_false_r. }
  now rewrite !G.
Qed.

(* With --merge the data stay for the command to add to. *)
Theorem C106_merge : forall ex mg a b s cmd, ~ In "--merge" (a ++ b)%list ->
  parse_line ("data" :: (a ++ b))%list = Some cmd -> is_shell cmd = false ->
  dispatch ex mg ("data" :: (a ++ "--merge" :: b))%list s = ex cmd s.
Proof.
  intros ex mg a b s cmd N P NS.
  assert (G : forall l, ~ In "--merge" l -> filter (fun t => negb (String.eqb t "--merge")) l = l).
  { induction l as [|x l IH]; intros H; [reflexivity |]. cbn.
    destruct (String.eqb x "--merge") eqn:E.
    - apply String.eqb_eq in E as ->. destruct H. now left.
    - cbn. f_equal. apply IH. intros K. apply H. now right. }
  assert (T : take_merge ("data" :: (a ++ "--merge" :: b))%list = (true, "data" :: (a ++ b))%list).
  { unfold take_merge. cbn. f_equal.
    - rewrite existsb_app. cbn. apply orb_true_r.
    - f_equal. rewrite in_app_iff in N. rewrite filter_app. cbn. now rewrite !G by tauto. }
  assert (B : bare ("data" :: (a ++ b))%list = ("data" :: (a ++ b))%list).
  { destruct (a ++ b)%list as [|x [|y r]]; try reflexivity. unfold bare. now destruct (prefix "-" x). }
  cbn -[take_merge bare run_line]. unfold run_line. cbn -[take_merge bare]. rewrite T, B, P, NS. reflexivity.
Qed.

(* Lines of a session. *)
Definition run ex mg (lines : list (list string)) (s : session) : session :=
  fold_left (fun s l => fst (dispatch ex mg l s)) lines s.

(* The full statement: for every session, the endpoint shown is that of the data.  Proved for sessions
   of `endpoint`, with or without a name, `reset` and `reset data endpoint`. *)
Theorem C106_endpoint_partial : forall used, (forall c n d, from_endpoint c n = Some d -> used d = Some n) ->
  forall ex mg lines s,
  Forall (fun l => l = ["endpoint"] \/ (exists n, l = ["endpoint"; n]) \/ l = ["reset"] \/
                   l = ["reset"; "data"; "endpoint"]) lines ->
  in_step used s -> in_step used (run ex mg lines s).
Proof.
  intros used U ex mg lines. induction lines as [|l lines IH]; intros s F H; [assumption |].
  inversion F as [|? ? Hl Ft]; subst. cbn [run fold_left]. apply IH; [assumption |]. clear IH F Ft.
  destruct Hl as [-> | [[n ->] | [-> | ->]]].
  - exact H.
  - cbn -[item_of store]. destruct (existsb (String.eqb n) (endpoints (settings s))); [| exact H].
    destruct (from_endpoint (settings s) n) as [d|] eqn:E; [| exact H].
    unfold in_step. cbn -[item_of store]. rewrite item_activate, item_store. cbn. symmetry. eapply U, E.
  - change (dispatch ex mg ["reset"] s) with (handle_reset [] s). rewrite C106_all_partial by now left.
    reflexivity.
  - unfold in_step. cbn -[item_of clear]. rewrite item_activate, item_clear. reflexivity.
Qed.

End Statements.
Print Assumptions C106_get.
Print Assumptions C106_set.
Print Assumptions C106_set_partial.
Print Assumptions C106_scalar_partial.
Print Assumptions C106_scalar_refuted.
Print Assumptions C106_reset.
Print Assumptions C106_reset_unknown.
Print Assumptions C106_all_partial.
Print Assumptions C106_short.
Print Assumptions C106_long.
Print Assumptions C106_replace.
Print Assumptions C106_merge.
Print Assumptions C106_endpoint_partial.

(* A small shell: the configuration is its tree, the contents of slots are texts and the data of an
   endpoint are its name. *)
#[local] Instance small : shell := {
  config := value;
  parse v := Some v;
  dump v := Some v;
  f64 s := if String.eqb s "0.5" then Some s else None;
  endpoints v := match lookup v "rdf_data.endpoints" with
                 | Some (VTab t) => map fst t
                 | _ => []
                 end;
  item := option string;
  from_endpoint _ n := Some (Some n);
  command := list string;
  parse_line ts := match ts with [] => None | _ => Some ts end;
  is_shell ts := match ts with c :: _ => String.eqb c "shell" | [] => false end;
  loads ts := match ts with c :: _ :: _ => String.eqb c "data" | _ => false end;
}.

(* Commands that fail and change nothing. *)
Definition failing (_ : list string) (s : @session small) : @session small * @output := (s, Failed).

Definition session0 : @session small := {|
  loaded := [(Data, Some "dbpedia"); (ShexSchema, None); (ShexResults, None)];
  prefixes := [("ex", "http://example.org/")];
  settings := tree "dbpedia";
  active := Some "dbpedia"; |}.

Definition used0 (d : @item small) : option string := d.

Definition based : value :=
  VTab [("base_iri", VStr "http://a/");
        ("rdf_data", VTab [("endpoints", VTab [("dbpedia", VTab [("query_url", VStr "https://dbpedia.org/sparql")])])])].

Example C106_met :
  (forall r c, @parse small r = Some c -> dump c = Some r) /\
  @dump small based = Some based /\ @get_config small based "base_iri" = Shown (VStr "http://a/") /\
  @get_config small based "base" = UnknownKey "base" /\
  @set_config small (tree "dbpedia") "base_iri" "http://a/" = (based, Shown (VStr "http://a/")) /\
  (forall c n d, @from_endpoint small c n = Some d -> used0 d = Some n) /\
  in_step used0 session0 /\
  Forall a_target ["shex"; "endpoint"] /\ ~ Forall a_target ["shex"; "all"] /\
  parse_line ["data"; "a.ttl"] = Some ["data"; "a.ttl"] /\ loads ["data"; "a.ttl"] = true /\
  same_but_data session0 (clear [Data] session0) /\
  short "node" "-n".
Proof.
  split; [intros r c [= ->]; reflexivity |]. do 4 (split; [reflexivity |]).
  split; [intros c n d [= <-]; reflexivity |]. split; [reflexivity |].
  split. { apply Forall_cons; [right; exists ShexSchema; constructor | apply Forall_cons; [now left | apply Forall_nil]]. }
  split. { intros H. inversion H as [|? ? _ K]. inversion K as [|? ? [E | [f E]] _]; [discriminate | inversion E]. }
  repeat split. constructor.
Qed.

(* After `reset`, default prefixes and changes of the configuration are still there. *)
Theorem C106_all_refuted : exists (L : shell) (s : session) c key text,
  settings (fst (handle_config ["set"; key; text] s)) <> c /\
  settings s = c /\
  let s' := fst (handle_reset [] (fst (handle_config ["set"; key; text] s))) in
  settings s' <> c /\ prefixes s' <> prefixes (fresh c).
Proof.
  exists small, session0, (tree "dbpedia"), "base_iri", "http://a/".
  split; [cbn; discriminate |]. split; [reflexivity |]. cbn. split; discriminate.
Qed.
Print Assumptions C106_all_refuted.

(* Results of a validation are cleared by no list of targets. *)
Theorem C106_results_refuted : exists (L : shell) (s : session) f, item_of s f <> None /\
  forall ts, ts <> [] -> Forall a_target ts -> item_of (fst (handle_reset ts s)) f <> None.
Proof.
  exists small, session0, ShexResults. split; [discriminate |].
  intros ts N A. destruct (C106_reset ts session0 N A) as (s' & -> & _ & K & _). cbn [fst].
  rewrite K; [discriminate |]. intros t _ O. inversion O.
Qed.
Print Assumptions C106_results_refuted.

(* `reset endpoint` leaves the data of the endpoint in use, and `reset data` leaves its name shown. *)
Theorem C106_endpoint_refuted : exists (L : shell) used (s : session),
  (forall c n d, from_endpoint c n = Some d -> used d = Some n) /\ in_step used s /\
  (forall ex mg, ~ in_step used (fst (dispatch ex mg ["reset"; "endpoint"] s)) /\
                 ~ in_step used (fst (dispatch ex mg ["reset"; "data"] s))).
Proof.
  exists small, used0, session0. split; [intros c n d [= <-]; reflexivity |]. split; [reflexivity |].
  intros ex mg. split; discriminate.
Qed.
Print Assumptions C106_endpoint_refuted.

(* A `data` that fails has the data that were loaded before gone, and the endpoint still shown. *)
Theorem C106_keep_refuted : exists (L : shell) (ex : command -> session -> session * output) (s : session) tokens,
  (forall cmd s, ex cmd s = (s, Failed)) /\
  item_of s Data <> None /\
  forall mg, snd (dispatch ex mg tokens s) = Failed /\ item_of (fst (dispatch ex mg tokens s)) Data = None /\
    active (fst (dispatch ex mg tokens s)) <> None.
Proof.
  exists small, failing, session0, ["data"; "missing.ttl"]. split; [reflexivity |]. split; [discriminate |].
  intros mg. repeat split. discriminate.
Qed.
Print Assumptions C106_keep_refuted.

(* All that is offered goes on from what was typed up to the cursor. *)
Theorem C106_offer : forall h line pos start cs, complete h line pos = Offer start cs ->
  forall c, In c cs ->
  start <= String.length (substring 0 pos line) /\
  prefix (substring start (String.length (substring 0 pos line) - start) (substring 0 pos line)) c = true /\
  (In c (commands h) \/ In c (names h) \/ In c (keys h) \/ c = "get" \/ c = "set").
Proof.
  intros h line pos start cs. unfold complete. set (p := substring 0 pos line).
  assert (W : word_start p <= String.length p).
  { unfold word_start. destruct (rfind p) as [n|] eqn:E; [| lia].
    revert n E. induction p as [|a q IH]; cbn; [discriminate |]. intros n.
    destruct (rfind q) as [m|]; [intros [= <-]; specialize (IH m eq_refl); lia |].
    destruct (Ascii.eqb a " "); [intros [= <-]; lia | discriminate]. }
  assert (G : forall n w l c, Offer n (starting w l) = Offer start cs -> In c cs ->
    n = start /\ prefix w c = true /\ In c l).
  { intros n w l c [= -> <-] K. unfold starting in K. apply filter_In in K as [A B]. auto. }
  destruct (rfind p) as [m|] eqn:R.
  - destruct (String.eqb (first_word line) "endpoint").
    + intros H c K. destruct (G _ _ _ c H K) as (<- & A & B). auto.
    + destruct (words (substring 0 (word_start p) p)) as [|a [|b [|]]]; try discriminate.
      * destruct (String.eqb a "config"); [| discriminate].
        intros H c K. destruct (G _ _ _ c H K) as (<- & A & B). split; [assumption |]. split; [assumption |].
        cbn in B. intuition.
      * destruct (String.eqb a "config" && (String.eqb b "get" || String.eqb b "set")); [| discriminate].
        intros H c K. destruct (G _ _ _ c H K) as (<- & A & B). split; [assumption |]. split; [assumption |]. tauto.
  - intros H c K. destruct (G _ _ _ c H K) as (<- & A & B). split; [lia |].
    rewrite Nat.sub_0_r, substring_all. auto.
Qed.
Print Assumptions C106_offer.

(* The full statement: for every line, commands, endpoints and keys are offered where they are read.
   Proved for lines typed with single blanks, from the first column, with the cursor at the end. *)
Theorem C106_complete_partial : forall h w, blankless w ->
  complete h w (String.length w) = Offer 0 (starting w (commands h)) /\
  complete h ("endpoint " ++ w) (9 + String.length w) = Offer 9 (starting w (names h)) /\
  complete h ("config " ++ w) (7 + String.length w) = Offer 7 (starting w ["get"; "set"]) /\
  complete h ("config get " ++ w) (11 + String.length w) = Offer 11 (starting w (keys h)) /\
  complete h ("config set " ++ w) (11 + String.length w) = Offer 11 (starting w (keys h)) /\
  forall k, blankless k ->
    (forall c, In c (list_ascii_of_string k) -> white c = false) -> k <> "" ->
    complete h ("config set " ++ k ++ " " ++ w) (12 + String.length k + String.length w) = Files.
Proof.
  intros h w B.
  assert (E : forall a n, n = S (String.length a) + String.length w ->
    complete h (a ++ " " ++ w) n = complete h (a ++ " " ++ w) (String.length (a ++ " " ++ w))).
  { intros a n ->. rewrite length_app. f_equal. cbn. lia. }
  split. { unfold complete. rewrite substring_all, (rfind_blankless w B). reflexivity. }
  split. { change ("endpoint " ++ w) with ("endpoint" ++ " " ++ w). rewrite E by reflexivity.
           now rewrite complete_end. }
  split. { change ("config " ++ w) with ("config" ++ " " ++ w). rewrite E by reflexivity.
           now rewrite complete_end. }
  split. { change ("config get " ++ w) with ("config get" ++ " " ++ w). rewrite E by reflexivity.
           now rewrite complete_end. }
  split. { change ("config set " ++ w) with ("config set" ++ " " ++ w). rewrite E by reflexivity.
           now rewrite complete_end. }
  intros k Bk Wk Nk.
  change ("config set " ++ k ++ " " ++ w) with (("config set " ++ k) ++ " " ++ w).
  rewrite E by (rewrite length_app; cbn; lia). rewrite complete_end by assumption. cbn zeta.
  change (String.eqb (first_word (("config set " ++ k) ++ " " ++ w)) "endpoint") with false. cbn iota.
  change (words (("config set " ++ k) ++ " ")) with ("config" :: "set" :: words_from "" (k ++ " ")).
  assert (G : forall r, k <> "" \/ r <> "" -> words_from r (k ++ " ") = [r ++ k]).
  { clear Bk Nk E. induction k as [|c k IH]; intros r H.
    - cbn. destruct H as [H | H]; [congruence |]. apply String.eqb_neq in H as ->.
      apply f_equal2; [| reflexivity]. clear. induction r as [|c r IH]; cbn; [reflexivity | now rewrite <- IH].
    - cbn. rewrite (Wk c) by now left. rewrite IH.
      + now rewrite app_assoc_s.
      + intros d K. apply Wk. now right.
      + right. now destruct r. }
  rewrite G by now left. reflexivity.
Qed.
Print Assumptions C106_complete_partial.

Definition helper0 : helper :=
  {| commands := ["config"; "endpoint"; "reset"]; names := ["dbpedia"; "wikidata"]; keys := ["base_iri"] |}.

Example C106_met_complete : blankless "db" /\
  complete helper0 "endpoint db" 11 = Offer 9 ["dbpedia"] /\
  complete helper0 "config se" 9 = Offer 7 ["set"] /\
  complete helper0 "config get b x" 12 = Offer 11 ["base_iri"].
Proof. split; [intros H; vm_compute in H; intuition discriminate |]. repeat split. Qed.

(* A second name is offered after `endpoint NAME`, although two names are an error. *)
Theorem C106_extra_refuted : exists h, complete h "endpoint dbpedia wi" 19 = Offer 17 ["wikidata"] /\
  forall (L : shell) ex mg (s : session), dispatch ex mg ["endpoint"; "dbpedia"; "wikidata"] s = (s, Usage).
Proof. exists helper0. split; [reflexivity | intros; reflexivity]. Qed.
Print Assumptions C106_extra_refuted.

(* A command is not offered behind a blank, although blanks before a line are dropped. *)
Theorem C106_indent_refuted : exists h, complete h "con" 3 = Offer 0 ["config"] /\ complete h " con" 4 = Files.
Proof. exists helper0. split; reflexivity. Qed.
Print Assumptions C106_indent_refuted.
