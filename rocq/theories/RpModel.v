(* The interactive shell of rudof: settings read and changed by dotted keys, clearing parts of the
   session, running one line, and what is offered on Tab.

   Source: rudof_cli/src/shell/repl.rs, rudof_cli/src/shell/completer.rs and the reset functions of
   rudof_lib/src/api/*/implementations.

   Simplifications.
   - The configuration and its reading from and writing to TOML are parameters (`parse`, `dump`);
     the text of TOML between the two trees is left out (repl.rs:552-555, 580-591).
   - Tables of TOML are lists of pairs; an insertion replaces the pair of that key or comes last.
   - What is loaded is a list of pairs of a slot and its contents; the contents are a parameter.
   - Reading of floats, splitting of a line into tokens, the parser of the arguments and the commands
     that are not the shell's own are parameters.  `prefixes` is modelled in DpModel.v.
   - Texts are strings of bytes; white space is that of ASCII.
   - Files offered by the library for reading lines are one outcome, `Files`. *)
From Coq Require Import List String Ascii Bool Arith ZArith.
Import ListNotations.
Open Scope string_scope.

(* toml::Value *)
Inductive value :=
| VStr (s : string)
| VInt (z : Z)
| VFloat (s : string)
| VBool (b : bool)
| VDate (s : string)
| VArr (l : list value)
| VTab (t : list (string * value)).

Fixpoint assoc {A} (k : string) (t : list (string * A)) : option A :=
  match t with
  | [] => None
  | (k', x) :: r => if String.eqb k k' then Some x else assoc k r
  end.

Fixpoint put {A} (k : string) (x : A) (t : list (string * A)) : list (string * A) :=
  match t with
  | [] => [(k, x)]
  | (k', y) :: r => if String.eqb k k' then (k, x) :: r else (k', y) :: put k x r
  end.

(* toml::Value::get with a text: only tables have keys. *)
Definition get (v : value) (k : string) : option value :=
  match v with
  | VTab t => assoc k t
  | _ => None
  end.

(* str::split('.') *)
Fixpoint split (s : string) : list string :=
  match s with
  | EmptyString => [""]
  | String c r =>
      if Ascii.eqb c "." then "" :: split r
      else match split r with
           | h :: t => String c h :: t
           | [] => [String c ""]
           end
  end.

(* try_fold of repl.rs:606-608 *)
Fixpoint walk (v : value) (ks : list string) : option value :=
  match ks with
  | [] => Some v
  | k :: r => match get v k with
              | Some x => walk x r
              | None => None
              end
  end.

(* config_lookup, repl.rs:606-608 *)
Definition lookup (root : value) (key : string) : option value := walk root (split key).

(* config_set_path, repl.rs:614-625 *)
Fixpoint set_at (v : value) (ks : list string) (new : value) : option value :=
  match ks with
  | [] => None
  | [k] => match v with
           | VTab t => Some (VTab (put k new t))
           | _ => None
           end
  | k :: r =>
      match v with
      | VTab t => match assoc k t with
                  | Some x => match set_at x r new with
                              | Some x' => Some (VTab (put k x' t))
                              | None => None
                              end
                  | None => None
                  end
      | _ => None
      end
  end.

Definition set_path (root : value) (key : string) (new : value) : option value :=
  set_at root (split key) new.

(* collect_config_key_paths, repl.rs:643-656; the list of config_key_paths (repl.rs:635-641) is this
   list, sorted. *)
Fixpoint collect (v : value) (prefix : string) : list string :=
  match v with
  | VTab t =>
      (fix go (t : list (string * value)) : list string :=
         match t with
         | [] => []
         | (k, x) :: r =>
             let path := if String.eqb prefix "" then k else prefix ++ "." ++ k in
             (path :: app (collect x path) (go r))
         end) t
  | _ => []
  end.

(* str::parse::<i64> *)
Definition digit (c : ascii) : option Z :=
  let n := nat_of_ascii c in
  if Nat.leb 48 n && Nat.leb n 57 then Some (Z.of_nat (n - 48)) else None.

Fixpoint digits (acc : Z) (s : string) : option Z :=
  match s with
  | EmptyString => Some acc
  | String c r => match digit c with
                  | Some d => digits (10 * acc + d)%Z r
                  | None => None
                  end
  end.

Definition int64 (z : Z) : bool := (Z.leb (-9223372036854775808) z && Z.leb z 9223372036854775807)%bool.

Definition unsigned (s : string) : option Z :=
  match s with
  | EmptyString => None
  | _ => digits 0 s
  end.

Definition i64 (s : string) : option Z :=
  let z := match s with
           | String "-" r => option_map Z.opp (unsigned r)
           | String "+" r => unsigned r
           | _ => unsigned s
           end in
  match z with
  | Some n => if int64 n then Some n else None
  | None => None
  end.

(* Slots of a session, rudof_lib/src/rudof.rs:84-144 *)
Inductive slot :=
| Data | ShaclShapes | ShaclResults | ShexSchema | ShexIr | Shapemap | ShexValidator | ShexResults
| PgSchema | Typemap | PgResults | SparqlQuery | QueryResults | Dctap | Service | RdfConfig | MapState.

Definition slot_eqb (a b : slot) : bool :=
  match a, b with
  | Data, Data | ShaclShapes, ShaclShapes | ShaclResults, ShaclResults | ShexSchema, ShexSchema
  | ShexIr, ShexIr | Shapemap, Shapemap | ShexValidator, ShexValidator | ShexResults, ShexResults
  | PgSchema, PgSchema | Typemap, Typemap | PgResults, PgResults | SparqlQuery, SparqlQuery
  | QueryResults, QueryResults | Dctap, Dctap | Service, Service | RdfConfig, RdfConfig
  | MapState, MapState => true
  | _, _ => false
  end.

Class shell := {
  config : Type;
  parse : value -> option config;            (* RudofConfig::from_toml_str *)
  dump : config -> option value;             (* RudofConfig::to_toml_string, read back *)
  f64 : string -> option string;             (* str::parse::<f64>, as it is shown *)
  endpoints : config -> list string;         (* names of rdf_data.endpoints *)
  item : Type;                               (* contents of slots *)
  from_endpoint : config -> string -> option item;   (* load_data_from_endpoint, load_data.rs:267-276 *)
  command : Type;
  parse_line : list string -> option command;        (* ReplLine::try_parse_from *)
  is_shell : command -> bool;                        (* CliCommand::Shell *)
  loads : command -> bool;   (* CliCommand::Data with has_new_data_source, repl.rs:342-344 *)
}.

Section Shell.
Context {L : shell}.

Record session := {
  loaded : list (slot * item);
  prefixes : list (string * string);
  settings : config;
  active : option string;
}.

(* Lines shown or the error of a line. *)
Inductive output :=
| Quiet
| Shown (v : value)
| UnknownKey (k : string)
| Invalid (k : string)
| Failed
| Usage
| NoEndpoint
| Endpoint (n : string)
| UnknownEndpoint (n : string)
| ResetAll
| ResetDone (ts : list string)
| UnknownTargets (ts : list string)
| Already
| Other (s : string).

(* parse_config_scalar, repl.rs:658-668 *)
Definition scalar (s : string) : value :=
  if String.eqb s "true" then VBool true
  else if String.eqb s "false" then VBool false
  else match i64 s with
       | Some z => VInt z
       | None => match f64 s with
                 | Some f => VFloat f
                 | None => VStr s
                 end
       end.

(* show_config with a key, repl.rs:557-571 *)
Definition get_config (c : config) (key : string) : output :=
  match dump c with
  | None => Failed
  | Some root => match lookup root key with
                 | Some v => Shown v
                 | None => UnknownKey key
                 end
  end.

(* set_config, repl.rs:573-598 *)
Definition set_config (c : config) (key text : string) : config * output :=
  match dump c with
  | None => (c, Failed)
  | Some root =>
      match set_path root key (scalar text) with
      | None => (c, UnknownKey key)
      | Some root' =>
          match parse root' with
          | None => (c, Invalid key)
          | Some c' =>
              match dump c' with
              | None => (c, Failed)
              | Some root'' =>
                  match lookup root'' key with
                  | None => (c, UnknownKey key)
                  | Some v => (c', Shown v)
                  end
              end
          end
      end
  end.

(* handle_config, repl.rs:536-546; its `config get` without a key shows all and is left out. *)
Definition handle_config (args : list string) (s : session) : session * output :=
  match args with
  | [g] => if String.eqb g "get" then (s, Quiet) else (s, Usage)
  | [g; key] => if String.eqb g "get" then (s, get_config (settings s) key) else (s, Usage)
  | [g; key; text] =>
      if String.eqb g "set" then
        let '(c, o) := set_config (settings s) key text in
        ({| loaded := loaded s; prefixes := prefixes s; settings := c; active := active s |}, o)
      else (s, Usage)
  | _ => (s, Usage)
  end.

Definition item_of (s : session) (f : slot) : option item :=
  option_map snd (find (fun p => slot_eqb f (fst p)) (loaded s)).

Definition clear (fs : list slot) (s : session) : session :=
  {| loaded := filter (fun p => negb (existsb (slot_eqb (fst p)) fs)) (loaded s);
     prefixes := prefixes s; settings := settings s; active := active s |}.

Definition store (f : slot) (x : item) (s : session) : session :=
  {| loaded := (f, x) :: loaded (clear [f] s);
     prefixes := prefixes s; settings := settings s; active := active s |}.

Definition activate (a : option string) (s : session) : session :=
  {| loaded := loaded s; prefixes := prefixes s; settings := settings s; active := a |}.

(* rudof_lib/src/api/core/implementations/reset_all.rs:3-21 *)
Definition reset_all : session -> session :=
  clear [Data; ShaclShapes; ShaclResults; ShexSchema; ShexIr; ShexValidator; ShexResults; PgSchema;
         PgResults; Typemap; Shapemap; SparqlQuery; QueryResults; Dctap; Service; RdfConfig; MapState].

(* RESET_TARGETS, repl.rs:413-426 *)
Definition reset_targets : list string :=
  ["data"; "shex"; "shacl"; "pgschema"; "shapemap"; "dctap"; "service"; "query"; "sparql"; "typemap";
   "rdf-config"; "endpoint"].

(* reset_target, repl.rs:460-479, with the functions reset_*.rs of rudof_lib/src/api *)
Definition reset_target (t : string) (s : session) : session :=
  if String.eqb t "data" then clear [Data] s
  else if String.eqb t "shex" then clear [ShexSchema; ShexIr; ShexValidator; MapState] s
  else if String.eqb t "shacl" then clear [ShaclShapes] s
  else if String.eqb t "pgschema" then clear [PgSchema] s
  else if String.eqb t "shapemap" then clear [Shapemap] s
  else if String.eqb t "dctap" then clear [Dctap] s
  else if String.eqb t "service" then clear [Service] s
  else if String.eqb t "query" then clear [SparqlQuery; QueryResults] (clear [SparqlQuery] s)
  else if String.eqb t "sparql" then clear [SparqlQuery] s
  else if String.eqb t "typemap" then clear [Typemap] s
  else if String.eqb t "rdf-config" then clear [RdfConfig] s
  else if String.eqb t "endpoint" then activate None s
  else s.

Definition known (t : string) : bool := existsb (String.eqb t) reset_targets.

Definition reset_everything (s : session) : session * output :=
  (activate None (reset_all s), ResetAll).

Definition reset_some (ts : list string) (s : session) : session * output :=
  match filter (fun t => negb (known t)) ts with
  | [] => (fold_left (fun s t => reset_target t s) ts s, ResetDone ts)
  | us => (s, UnknownTargets us)
  end.

(* handle_reset, repl.rs:428-451 *)
Definition handle_reset (args : list string) (s : session) : session * output :=
  match args with
  | [] => reset_everything s
  | [t] => if String.eqb t "all" then reset_everything s else reset_some [t] s
  | _ => reset_some args s
  end.

(* handle_endpoint, repl.rs:355-394 *)
Definition handle_endpoint (args : list string) (s : session) : session * output :=
  match args with
  | [] => (s, match active s with Some n => Endpoint n | None => NoEndpoint end)
  | [n] =>
      if existsb (String.eqb n) (endpoints (settings s)) then
        match from_endpoint (settings s) n with
        | Some d => (activate (Some n) (store Data d s), Endpoint n)
        | None => (s, Failed)
        end
      else (s, UnknownEndpoint n)
  | _ => (s, Usage)
  end.

(* take_merge_flag, repl.rs:769-773 *)
Definition take_merge (tokens : list string) : bool * list string :=
  (existsb (fun t => String.eqb t "--merge") tokens,
   filter (fun t => negb (String.eqb t "--merge")) tokens).

(* BARE_RESOURCE_FLAG, repl.rs:710-722 *)
Definition bare_flags : list (string * string) :=
  [("shex", "-s"); ("shacl", "-s"); ("shapemap", "-m"); ("pgschema", "-s"); ("dctap", "-s");
   ("service", "-s"); ("materialize", "-s"); ("generate", "-s"); ("rdf-config", "-s"); ("node", "-n");
   ("sparql", "-q")].

(* apply_bare_resource_convenience, repl.rs:775-785 *)
Definition bare (tokens : list string) : list string :=
  match tokens with
  | [c; v] => if prefix "-" v then tokens
              else match assoc c bare_flags with
                   | Some f => [c; f; v]
                   | None => tokens
                   end
  | _ => tokens
  end.

(* The part of `dispatch` after the shell's own commands, repl.rs:192-255, up to running the command. *)
Definition run_line (execute : command -> session -> session * output) (tokens : list string)
  (s : session) : session * output :=
  let c := match tokens with c :: _ => c | [] => "" end in
  let '(merge, tokens) := if String.eqb c "data" then take_merge tokens else (false, tokens) in
  match parse_line (bare tokens) with
  | None => (s, Usage)
  | Some cmd =>
      if is_shell cmd then (s, Already)
      else execute cmd (if negb merge && loads cmd then clear [Data] s else s)
  end.

(* dispatch, repl.rs:161-255, for a line that is not for the system shell *)
Definition dispatch (execute : command -> session -> session * output)
  (manage : list string -> session -> session * output)
  (tokens : list string) (s : session) : session * output :=
  match tokens with
  | [] => (s, Quiet)
  | c :: args =>
      if String.eqb c "endpoint" then handle_endpoint args s
      else if String.eqb c "reset" then handle_reset args s
      else if String.eqb c "prefixes" then manage args s
      else if String.eqb c "config" &&
              match args with
              | sub :: _ => String.eqb sub "get" || String.eqb sub "set"
              | [] => false
              end
      then handle_config args s
      else run_line execute tokens s
  end.

End Shell.

(* Completion. *)

Record helper := {
  commands : list string;
  names : list string;     (* endpoints *)
  keys : list string;      (* config_keys *)
}.

Inductive offer :=
| Offer (start : nat) (candidates : list string)
| Files.

(* str::rfind(' ') *)
Fixpoint rfind (s : string) : option nat :=
  match s with
  | EmptyString => None
  | String c r => match rfind r with
                  | Some n => Some (S n)
                  | None => if Ascii.eqb c " " then Some 0 else None
                  end
  end.

Definition word_start (p : string) : nat :=
  match rfind p with
  | Some n => S n
  | None => 0
  end.

Definition white (c : ascii) : bool :=
  let n := nat_of_ascii c in Nat.eqb n 32 || (Nat.leb 9 n && Nat.leb n 13).

(* str::split_whitespace; `w` is the word being read. *)
Fixpoint words_from (w : string) (s : string) : list string :=
  match s with
  | EmptyString => if String.eqb w "" then [] else [w]
  | String c r =>
      if white c then if String.eqb w "" then words_from "" r else w :: words_from "" r
      else words_from (w ++ String c "") r
  end.

Definition words (s : string) : list string := words_from "" s.

(* first_word_end, completer.rs:48-50, as the first word itself *)
Fixpoint first_word (s : string) : string :=
  match s with
  | EmptyString => ""
  | String c r => if Ascii.eqb c " " then "" else String c (first_word r)
  end.

Definition starting (w : string) (l : list string) : list string := filter (prefix w) l.

(* complete, completer.rs:83-141; `pos` is the place of the cursor in the line. *)
Definition complete (h : helper) (line : string) (pos : nat) : offer :=
  let p := substring 0 pos line in
  let start := word_start p in
  let before := substring 0 start p in
  let word := substring start (String.length p - start) p in
  match rfind p with
  | None => Offer 0 (starting p (commands h))
  | Some _ =>
      if String.eqb (first_word line) "endpoint" then Offer start (starting word (names h))
      else match words before with
           | [c] => if String.eqb c "config" then Offer start (starting word ["get"; "set"]) else Files
           | [c; d] => if String.eqb c "config" && (String.eqb d "get" || String.eqb d "set")
                       then Offer start (starting word (keys h)) else Files
           | _ => Files
           end
  end.
