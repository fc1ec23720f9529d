(* Files given to QLever: the command and the mounts of its index builder, and the folders of indexes.

   Source: rudof_rdf/src/rdf_impl/qlever/{index_builder,graph_container,config,decompressor}.rs.

   Simplifications.
   - Text is a list of characters, paths are absolute and are a folder and a name; the files are not in
     the root folder.
   - Docker and its image work; the index builder, the programs that unpack and the conversion of
     formats are parameters.  The builder writes its last file just when it ends well
     (index_builder.rs:57-61).
   - What a program that unpacks writes reaches the builder; the limit of five seconds is left out.
   - Of a path that is given, the kind is what strip_compression_suffix (decompressor.rs:206-215), the
     format asked for, and guess_format (graph_container.rs:516-528) make of it.  Prefixes of the
     sources and starting the server are left out. *)
From Coq Require Import List String Ascii Bool Arith NArith DecimalString.
Import ListNotations.
Open Scope list_scope.

Definition text := list ascii.
Definition text_dec : forall a b : text, {a = b} + {a <> b} := list_eq_dec ascii_dec.
Definition chars (s : string) : text := list_ascii_of_string s.
Definition print (n : nat) : text := chars (NilZero.string_of_uint (Nat.to_uint n)).
Definition slash : ascii := "/"%char.
Definition nul : ascii := ascii_of_nat 0.

(* config.rs:336-353 *)
Inductive format := Turtle | NTriples | NQuads.
Definition cli_arg (f : format) : text :=
  chars match f with Turtle => "ttl" | NTriples => "nt" | NQuads => "nq" end.

(* decompressor.rs:33-48, and family_name at 60, 93 and 120 *)
Inductive packing := Bzip2 | Xz | Gzip.
Definition family (p : packing) : text := chars match p with Bzip2 => "bz2" | Xz => "xz" | Gzip => "gz" end.

(* InputFile, config.rs:298-332; its name within the container is not used *)
Record input := { folder : text; name : text; format_of : format; graph : option text; packed : option packing }.
Definition path (i : input) : text := folder i ++ slash :: name i.
Definition graph_arg (i : input) : text := match graph i with Some g => g | None => chars "-" end.
Definition is_packed (i : input) : bool := match packed i with Some _ => true | None => false end.

(* QleverConfig, config.rs; those parts that matter here *)
Record config := {
  index_name : text;
  memory : option text;
  buffer : option text;
  parallel : option bool;
  index_dir : option text;
}.

(* shell_quote and safe_char, index_builder.rs:654-668 *)
Definition between (a b c : ascii) : bool := (nat_of_ascii a <=? nat_of_ascii c) && (nat_of_ascii c <=? nat_of_ascii b).
Definition safe_char (c : ascii) : bool :=
  between "A" "Z" c || between "a" "z" c || between "0" "9" c ||
  existsb (Ascii.eqb c) (chars "-_./:=").
Definition apostrophe : ascii := ascii_of_nat 39.
Definition backslash : ascii := ascii_of_nat 92.
Definition escape (s : text) : text :=
  flat_map (fun c => if Ascii.eqb c apostrophe then [apostrophe; backslash; apostrophe; apostrophe] else [c]) s.
Definition shell_quote (s : text) : text :=
  if forallb safe_char s then s else apostrophe :: escape s ++ [apostrophe].

(* shell_join, index_builder.rs:649-652 *)
Fixpoint shell_join (l : list text) : text :=
  match l with
  | [] => []
  | [a] => shell_quote a
  | a :: l => shell_quote a ++ " "%char :: shell_join l
  end.

(* build_argv_and_binds, index_builder.rs:137-227 *)
Definition data_dir : text := chars "/data".
Definition bind (host container mode : text) : text := host ++ ":"%char :: container ++ ":"%char :: mode.

Fixpoint mount_of (f : text) (ms : list (text * text)) : option text :=
  match ms with
  | [] => None
  | (g, c) :: ms => if text_dec f g then Some c else mount_of f ms
  end.

Definition flags (p : text) (i : input) : list text :=
  [chars "-f"; p; chars "-F"; cli_arg (format_of i); chars "-g"; graph_arg i].

Fixpoint arguments (idx : text) (l : list input) (ms : list (text * text)) (binds : list text) : list text * list text :=
  match l with
  | [] => ([], binds)
  | i :: l =>
      if is_packed i then
        let (a, b) := arguments idx l ms binds in (flags (chars "-") i ++ a, b)
      else
        let '(c, ms, binds) :=
          match mount_of (folder i) ms with
          | Some c => (c, ms, binds)
          | None =>
              if text_dec (folder i) idx then (data_dir, (folder i, data_dir) :: ms, binds)
              else let c := chars "/inputs/" ++ print (List.length ms) in
                   (c, (folder i, c) :: ms, binds ++ [bind (folder i) c (chars "ro")])
          end in
        let (a, b) := arguments idx l ms binds in (flags (c ++ slash :: name i) i ++ a, b)
  end.

Definition option_flag {A} (f : string) (show : A -> text) (o : option A) : list text :=
  match o with Some x => [chars f; show x] | None => [] end.

Definition head_of (cmd : text) (cfg : config) : list text :=
  [cmd; chars "-i"; index_name cfg] ++ option_flag "-m" (fun x => x) (memory cfg) ++
  option_flag "--parser-buffer-size" (fun x => x) (buffer cfg) ++
  option_flag "--parse-parallel" (fun b : bool => chars (if b then "true" else "false")) (parallel cfg).

Definition build_argv (cmd : text) (inputs : list input) (cfg : config) (idx : text) : option (list text * list text) :=
  if 1 <? List.length (filter is_packed inputs) then None
  else let (a, b) := arguments idx inputs [] [bind idx data_dir (chars "rw")] in Some (head_of cmd cfg ++ a, b).

(* Fnv1a, index_builder.rs:612-647, and the sixteen digits of its value *)
Definition fnv (l : text) : N :=
  fold_left (fun h c => (N.lxor h (N_of_ascii c) * 1099511628211) mod 2 ^ 64)%N l 14695981039346656037%N.
Definition digit (n : N) : ascii :=
  match nth_error (chars "0123456789abcdef") (N.to_nat n) with Some c => c | None => "0"%char end.
Fixpoint hex (k : nat) (n : N) : text :=
  match k with 0 => [] | S k => hex k (n / 16)%N ++ [digit (n mod 16)%N] end.

(* fingerprint_inputs, index_builder.rs:595-610: what is hashed *)
Definition stream (l : list input) : text :=
  flat_map (fun i => path i ++ nul :: cli_arg (format_of i) ++
                     match graph i with Some g => g | None => [] end ++
                     match packed i with Some p => family p | None => [] end) l.

(* what is given to the builder for one input *)
Definition fed : Type := format * option text * text.

(* RDFFormat *)
Inductive rdf := RTurtle | RNTriples | RNQuads | RRdfXml | RTriG | RJsonLd | RN3.

Class lib := {
  cache : text;                            (* the folder of config.rs:285-292 *)
  tool : packing -> bool;                  (* some program for it is found *)
  unpack : packing -> text -> text * bool; (* what it writes, and whether it ends well *)
  accepts : list fed -> bool;              (* the builder ends well *)
  to_native : rdf -> text -> option text;  (* parsed and written in the target format *)
}.

Section Build.
Context {L : lib}.

(* Files by their paths; indexes by their folder and name. *)
Record world := { files : text -> option text; index : text * text -> option (list fed) }.

Definition put_file (w : world) (p t : text) : world :=
  {| files := fun q => if text_dec q p then Some t else files w q; index := index w |}.
Definition key_dec (a b : text * text) : {a = b} + {a <> b}.
Proof. decide equality; apply text_dec. Defined.
Definition put_index (w : world) (k : text * text) (l : list fed) : world :=
  {| files := files w; index := fun q => if key_dec q k then Some l else index w q |}.

(* resolve_index_dir, config.rs:281-293 *)
Definition resolve (cfg : config) (bytes : text) : text :=
  match index_dir cfg with
  | Some d => d
  | None => cache ++ slash :: hex 16 (fnv bytes)
  end.

(* What the builder reads for one input; a packed file that is missing is an empty stream. *)
Definition feed (w : world) (i : input) : option (fed * bool) :=
  match packed i with
  | None => match files w (path i) with
            | Some t => Some ((format_of i, graph i, t), true)
            | None => None
            end
  | Some p => match files w (path i) with
              | Some t => let (u, ok) := unpack p t in Some ((format_of i, graph i, u), ok)
              | None => Some ((format_of i, graph i, []), false)
              end
  end.

Fixpoint feeds (w : world) (l : list input) : option (list (fed * bool)) :=
  match l with
  | [] => Some []
  | i :: l => match feed w i, feeds w l with
              | Some x, Some r => Some (x :: r)
              | _, _ => None
              end
  end.

Definition found (i : input) : bool := match packed i with Some p => tool p | None => true end.

(* build_index, index_builder.rs:67-135, with run_one_shot (230-290) and run_one_shot_with_stdin
   (298-473); the folder of the index, or an error *)
Definition build_index (w : world) (inputs : list input) (cfg : config) : world * option text :=
  match inputs with
  | [] => (w, None)
  | _ =>
      let d := resolve cfg (stream inputs) in
      match index w (d, index_name cfg) with
      | Some _ => (w, Some d)
      | None =>
          if 1 <? List.length (filter is_packed inputs) then (w, None)
          else if negb (forallb found inputs) then (w, None)
          else match feeds w inputs with
               | None => (w, None)
               | Some l =>
                   if accepts (List.map fst l)
                   then (put_index w (d, index_name cfg) (List.map fst l),
                         if forallb snd l then Some d else None)
                   else (w, None)
               end
      end
  end.

Inductive kind := Plain (r : rdf) | Packed (p : packing) (f : format).
Record source := { sfolder : text; sname : text; sstem : text; skind : kind }.
Definition spath (s : source) : text := sfolder s ++ slash :: sname s.

(* native_for_passthrough, graph_container.rs:507-514 *)
Definition native (r : rdf) : option format :=
  match r with RTurtle => Some Turtle | RNTriples => Some NTriples | RNQuads => Some NQuads | _ => None end.

(* the target of convert_to_native, index_builder.rs:694-703 *)
Definition target (r : rdf) : format :=
  match r with RNQuads | RTriG | RJsonLd => NQuads | _ => NTriples end.
Definition target_name (s : source) (r : rdf) : text := sstem s ++ "."%char :: cli_arg (target r).

(* input_file_from_path, graph_container.rs:425-503 *)
Definition input_of (w : world) (cdir : text) (s : source) : world * option input :=
  match files w (spath s) with
  | None => (w, None)
  | Some t =>
      let here f p := {| folder := sfolder s; name := sname s; format_of := f; graph := None; packed := p |} in
      match skind s with
      | Packed p f => (w, Some (here f (Some p)))
      | Plain r =>
          match native r with
          | Some f => (w, Some (here f None))
          | None =>
              match to_native r t with
              | None => (w, None)
              | Some u =>
                  (put_file w (cdir ++ slash :: target_name s r) u,
                   Some {| folder := cdir; name := target_name s r; format_of := target r; graph := None; packed := None |})
              end
          end
      end
  end.

Fixpoint inputs_of (w : world) (cdir : text) (l : list source) : world * option (list input) :=
  match l with
  | [] => (w, Some [])
  | s :: l =>
      let (w, i) := input_of w cdir s in
      match i with
      | None => (w, None)
      | Some i => let (w, r) := inputs_of w cdir l in
                  (w, match r with Some r => Some (i :: r) | None => None end)
      end
  end.

(* from_paths, graph_container.rs:65-105, up to the server; fingerprint_for_paths hashes all paths *)
Definition convert_dir (cfg : config) (l : list source) : text :=
  resolve cfg (flat_map (fun s => spath s ++ [nul]) l).
Definition from_paths (w : world) (l : list source) (cfg : config) : world * option text :=
  match l with
  | [] => (w, None)
  | _ => let (w, is) := inputs_of w (convert_dir cfg l) l in
         match is with
         | None => (w, None)
         | Some is => build_index w is cfg
         end
  end.

End Build.
