(* The server for language models: pages of listings, notifications of logs, and the state that is kept
   for the next start.

   Source: rudof_mcp/src/service/{pagination,logging,state,mcp_service}.rs,
   rudof_mcp/src/service/tools/data_tools_impl.rs, rudof_mcp/src/service/handlers.rs,
   rudof_lib/src/api/data/builders/load_data.rs and parts of load_data.rs.

   Simplifications.
   - Time is a number; both readings of the clock in should_emit are the same.
   - Graphs, their merging, N-Triples and JSON are parameters; the time of the last save is left out.
   - Sources are given as what they hold; specifications and formats that cannot be parsed are one case.
   - White space is that of ASCII.
   - Files are bytes under two names, the target and the temporary one, with what is left of the disk;
     names stay with their directory, and renaming is atomic. *)
From Coq Require Import String Ascii List Bool Arith NArith DecimalString DecimalN.
Import ListNotations.
Open Scope string_scope.
Open Scope nat_scope.
Open Scope list_scope.

(* ---------- pages ---------- *)

(* usize::to_string *)
Definition print (n : N) : string := NilZero.string_of_uint (N.to_uint n).

(* str::parse::<usize> on 64 bits: a plus sign may come first *)
Definition read_usize (s : string) : option N :=
  let digits := match s with
                | String "+" r => r
                | _ => s
                end in
  match NilZero.uint_of_string digits with
  | Some u => if (N.of_uint u <? 2 ^ 64)%N then Some (N.of_uint u) else None
  | None => None
  end.

(* parse_cursor, pagination.rs:10-27 *)
Definition parse_cursor (cursor : option string) (upper_bound : N) : option N :=
  match cursor with
  | None => Some 0%N
  | Some c => match read_usize c with
              | Some n => if (upper_bound <? n)%N then None else Some n
              | None => None
              end
  end.

(* DEFAULT_PAGE_SIZE, pagination.rs:4 *)
Definition page_size : N := 20.

(* list_tools and list_prompts, handlers.rs:77-147; list_resources, resources_impl.rs:29-69 *)
Definition page {A} (all : list A) (request : option (option string)) : option (list A * option string) :=
  match request with
  | None => Some (all, None)
  | Some c =>
      let len := N.of_nat (length all) in
      match parse_cursor c len with
      | None => None
      | Some cursor =>
          let start := N.min cursor len in
          let stop := N.min (start + page_size) len in
          Some (firstn (N.to_nat (stop - start)) (skipn (N.to_nat start) all),
                if (stop <? len)%N then Some (print stop) else None)
      end
  end.

(* ---------- logs ---------- *)

Inductive level := Emergency | Alert | Critical | Error | Warning | Notice | Info | Debug.

Definition level_eqb (a b : level) : bool :=
  match a, b with
  | Emergency, Emergency | Alert, Alert | Critical, Critical | Error, Error | Warning, Warning
  | Notice, Notice | Info, Info | Debug, Debug => true
  | _, _ => false
  end.

(* LOG_LEVEL_MAP, logging.rs:34-43 *)
Definition level_map : list (level * nat) :=
  [(Emergency, 0); (Alert, 1); (Critical, 2); (Error, 3); (Warning, 4); (Notice, 5); (Info, 6); (Debug, 7)].

(* level_to_value, logging.rs:55-61 *)
Definition level_to_value (l : level) : nat :=
  match find (fun p => level_eqb (fst p) l) level_map with
  | Some p => snd p
  | None => 6
  end.

(* should_log, logging.rs:71-75 *)
Definition should_log (l min : level) : bool := level_to_value l <=? level_to_value min.

(* LogRateLimiter, logging.rs:79-84 *)
Record limiter := { started : nat; emitted : nat; most : nat; window : nat }.

(* LogRateLimiter::new, logging.rs:93-100 *)
Definition limit (max w now : nat) : limiter := {| started := now; emitted := 0; most := max; window := w |}.

(* should_emit, logging.rs:102-114 *)
Definition should_emit (l : limiter) (now : nat) : limiter * bool :=
  let l := if window l <=? now - started l
           then {| started := now; emitted := 0; most := most l; window := window l |}
           else l in
  if emitted l <? most l
  then ({| started := started l; emitted := S (emitted l); most := most l; window := window l |}, true)
  else (l, false).

(* send_log, logging.rs:180-228: whether the notification is sent *)
Definition send_log (l : level) (min : option level) (lim : limiter) (now : nat) : limiter * bool :=
  match min with
  | None => (lim, false)
  | Some m => if should_log l m then should_emit lim now else (lim, false)
  end.

(* Messages one after another, with the least level as it is; those sent are kept. *)
Fixpoint send_all (min : option level) (lim : limiter) (ms : list (nat * level)) : list (nat * level) :=
  match ms with
  | [] => []
  | (now, l) :: ms =>
      let (lim', b) := send_log l min lim now in
      if b then (now, l) :: send_all min lim' ms else send_all min lim' ms
  end.

Definition text := list N.      (* code points *)
Definition points (s : string) : text := map N_of_ascii (list_ascii_of_string s).

(* MAX_TEXT_FIELD_CHARS, logging.rs:52 *)
Definition max_chars : nat := N.to_nat 2048.

(* truncate_text, logging.rs:117-125 *)
Definition truncate (t : text) : text :=
  if length t <=? max_chars then t else firstn max_chars t ++ points "...[truncated]".

(* serde_json::Map::insert *)
Fixpoint insert (k : string) (v : text) (m : list (string * text)) : list (string * text) :=
  match m with
  | [] => [(k, v)]
  | (k', v') :: m => if String.eqb k k' then (k, v) :: m else (k', v') :: insert k v m
  end.

Fixpoint get (k : string) (m : list (string * text)) : option text :=
  match m with
  | [] => None
  | (k', v) :: m => if String.eqb k k' then Some v else get k m
  end.

(* LogData::to_json, logging.rs:157-164; fields are texts *)
Definition to_json (message : text) (fields : list (string * text)) : list (string * text) :=
  fold_left (fun m f => insert (fst f) (snd f) m) fields (insert "message" (truncate message) []).

(* ---------- what is kept ---------- *)

Definition newline : ascii := ascii_of_nat 10.

Fixpoint split_lines (s : string) : list string :=
  match s with
  | EmptyString => [EmptyString]
  | String c r =>
      if Ascii.eqb c newline then EmptyString :: split_lines r
      else match split_lines r with
           | [] => [String c EmptyString]
           | w :: ws => String c w :: ws
           end
  end.

Definition white (c : ascii) : bool :=
  let n := nat_of_ascii c in Nat.eqb n 32 || ((9 <=? n) && (n <=? 13)).

Fixpoint trim_start (s : string) : string :=
  match s with
  | String c r => if white c then trim_start r else s
  | EmptyString => EmptyString
  end.

(* count_triples_in_ntriples, mcp_service.rs:176-184; the end of a line does not matter here *)
Definition counted (line : string) : bool :=
  match trim_start line with
  | EmptyString => false
  | String c _ => negb (Ascii.eqb c "#")
  end.
Definition count_triples (nt : string) : nat := length (filter counted (split_lines nt)).

(* PersistedState, state.rs:30-46 *)
Record persisted := { version : nat; ntriples : option string; triples : option nat }.

Class store := {
  graph : Type;
  pgraph : Type;
  byte : Type;
  zero : byte;
  nothing : graph;
  merge : graph -> graph -> graph;
  pnothing : pgraph;
  pmerge : pgraph -> pgraph -> pgraph;
  to_nt : graph -> string;
  of_nt : string -> option graph;
  show_pg : pgraph -> string;
  encode : persisted -> list byte;
  decode : list byte -> option persisted;
}.

Section Service.
Context {L : store}.

Inductive data := Rdf (g : graph) | Pg (p : pgraph).

Inductive source (A : Type) := Missing | Malformed | Holds (x : A).
Arguments Missing {A}.
Arguments Malformed {A}.
Arguments Holds {A}.

Record service := { loaded : option data; file : option (list byte); available : bool }.

Definition with_loaded (s : service) (d : option data) : service :=
  {| loaded := d; file := file s; available := available s |}.

(* load_data_from_specs_rdf and read_rdf_data, load_data.rs:76-106 and :171-224, merging *)
Fixpoint read_rdf (d : option data) (l : list (source graph)) : option data * bool :=
  match l with
  | [] => (d, true)
  | x :: l =>
      let g := match d with Some (Rdf g) => g | _ => nothing end in
      match x with
      | Missing => (d, false)
      | Malformed => (Some (Rdf g), false)
      | Holds h => read_rdf (Some (Rdf (merge g h))) l
      end
  end.

(* load_data_from_specs_pg and read_pg_data, load_data.rs:60-74 and :226-251 *)
Fixpoint read_pg (d : option data) (l : list (source pgraph)) : option data * bool :=
  match l with
  | [] => (d, true)
  | x :: l =>
      let p := match d with Some (Pg p) => p | _ => pnothing end in
      match x with
      | Missing => (d, false)
      | Malformed => (Some (Pg p), false)
      | Holds h => read_pg (Some (Pg (pmerge p h))) l
      end
  end.

Inductive sources := RdfSources (l : list (source graph)) | PgSources (l : list (source pgraph)) | Unparsed.

Definition no_sources (l : sources) : bool :=
  match l with
  | RdfSources [] | PgSources [] => true
  | _ => false
  end.

Inductive outcome := Loaded (count : nat) | ToolError | ProtocolError.

(* serialize_data with N-Triples, serialize_data.rs:8-64 *)
Definition serialize (d : option data) : option string :=
  match d with
  | None => None
  | Some (Rdf g) => Some (to_nt g)
  | Some (Pg p) => Some (show_pg p)
  end.

(* load_rdf_data_from_sources_impl up to the saving, data_tools_impl.rs:113-222, where data are always
   given to the builder; load_data.rs:30-45 *)
Definition load (s : service) (l : sources) (endpoint : option string) : service * outcome * option string :=
  if no_sources l && match endpoint with None => true | Some _ => false end then (s, ToolError, None)
  else match l with
       | Unparsed => (s, ToolError, None)
       | _ =>
           match endpoint with
           | Some _ => (s, ProtocolError, None)
           | None =>
               let (d, ok) := match l with
                              | RdfSources l => read_rdf (loaded s) l
                              | PgSources l => read_pg (loaded s) l
                              | Unparsed => (loaded s, false)
                              end in
               let s := with_loaded s d in
               if ok then match serialize d with
                          | Some nt => (s, Loaded (count_triples nt), Some nt)
                          | None => (s, ProtocolError, None)
                          end
               else (s, ProtocolError, None)
           end
       end.

(* persist_state_with, mcp_service.rs:200-228, with the text given and no failure of the file system *)
Definition persist (s : service) (nt : string) : service :=
  if available s
  then {| loaded := loaded s; available := available s;
          file := Some (encode {| version := 1; ntriples := Some nt; triples := Some (count_triples nt) |}) |}
  else s.

(* load_rdf_data_from_sources_impl *)
Definition load_tool (s : service) (l : sources) (endpoint : option string) : service * outcome :=
  match load s l endpoint with
  | (s, o, Some nt) => (persist s nt, o)
  | (s, o, None) => (s, o)
  end.

(* try_new, mcp_service.rs:123-158, with load_state, state.rs:105-133 *)
Definition start (f : option (list byte)) (av : bool) : service :=
  {| file := f; available := av;
     loaded := match match f with Some b => decode b | None => None end with
               | Some p => match ntriples p with
                           | None | Some EmptyString => None
                           | Some nt => match of_nt nt with
                                        | Some g => Some (Rdf (merge nothing g))
                                        | None => Some (Rdf nothing)
                                        end
                           end
               | None => None
               end |}.

Definition restart (s : service) : service := start (file s) (available s).

(* ---------- saving ---------- *)

(* The target, the temporary file, contents, the next file, and the bytes left on the disk. *)
Record disk := { target : option nat; temp : option nat; contents : nat -> list byte; next : nat; space : nat }.

Definition read_target (d : disk) : option (list byte) := option_map (contents d) (target d).

Definition put (d : disk) (i : nat) (b : list byte) (left : nat) : disk :=
  {| target := target d; temp := temp d; next := next d; space := left;
     contents := fun j => if Nat.eqb j i then b else contents d j |}.

Inductive op := Create | Write (b : list byte) | Flush (b : list byte) | Rename.

(* save_state_to_path, state.rs:158-182: what is written when the buffer is full, the rest when the
   buffer is dropped *)
Definition save_ops (chunks : list (list byte)) (rest : list byte) : list op :=
  Create :: map Write chunks ++ [Flush rest; Rename].

Inductive status := Running | Finished | Failed.
Record saver := { handle : nat * nat; todo : list op; state : status }.

Definition saving (chunks : list (list byte)) (rest : list byte) : saver :=
  {| handle := (0, 0); todo := save_ops chunks rest; state := Running |}.

Definition write_at (off : nat) (b l : list byte) : list byte :=
  firstn off (l ++ repeat zero (off - length l)) ++ b ++ skipn (off + length b) l.

(* write_all: as much as there is space for *)
Definition write (d : disk) (h : nat * nat) (b : list byte) : disk * (nat * nat) * bool :=
  let n := Nat.min (length b) (space d) in
  (put d (fst h) (write_at (snd h) (firstn n b) (contents d (fst h))) (space d - n),
   (fst h, snd h + n), length b <=? space d).

(* One operation; the failure of the last flush, in the drop of BufWriter, is not seen. *)
Definition advance (d : disk) (p : saver) : disk * saver :=
  match state p, todo p with
  | Running, Create :: l =>
      match temp d with
      | Some i => (put d i [] (space d), {| handle := (i, 0); todo := l; state := Running |})
      | None =>
          let i := next d in
          ({| target := target d; temp := Some i; next := S i; space := space d;
              contents := fun j => if Nat.eqb j i then [] else contents d j |},
           {| handle := (i, 0); todo := l; state := Running |})
      end
  | Running, Write b :: l =>
      let '(d', h, ok) := write d (handle p) b in
      (d', {| handle := h; todo := l; state := if ok then Running else Failed |})
  | Running, Flush b :: l =>
      let '(d', h, _) := write d (handle p) b in
      (d', {| handle := h; todo := l; state := Running |})
  | Running, Rename :: l =>
      match temp d with
      | Some i => ({| target := Some i; temp := None; contents := contents d; next := next d; space := space d |},
                   {| handle := handle p; todo := l; state := Finished |})
      | None => (d, {| handle := handle p; todo := l; state := Failed |})
      end
  | _, _ => (d, p)
  end.

(* The first operations of a save, up to a crash. *)
Fixpoint crash (k : nat) (d : disk) (p : saver) : disk * saver :=
  match k with
  | 0 => (d, p)
  | S k => let (d, p) := advance d p in crash k d p
  end.

(* Two saves at the same time: true for an operation of the first. *)
Fixpoint both (schedule : list bool) (d : disk) (p q : saver) : disk * saver * saver :=
  match schedule with
  | [] => (d, p, q)
  | true :: s => let (d, p) := advance d p in both s d p q
  | false :: s => let (d, q) := advance d q in both s d p q
  end.

End Service.
Arguments Missing {A}.
Arguments Malformed {A}.
Arguments Holds {A}.
