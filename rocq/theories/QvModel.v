(* Serving an index with QLever: the command of the server, and what is deleted when it ends.

   Source: rudof_rdf/src/rdf_impl/qlever/{server,graph_container}.rs; build_index and from_paths are those
   of QiModel.

   Simplifications.  Docker works; whether the server answers in time is given.  Of the container only
   the command is modelled.  Deleting a folder succeeds.  Links are left out. *)
From Coq Require Import List String Ascii Bool Arith.
From Verif Require Import QiModel.
Import ListNotations.
Open Scope list_scope.

(* The parts of QleverConfig that the server uses, config.rs. *)
Record settings := {
  port : nat;
  token : option text;
  queries : option nat;
  memory_max : option text;
  cache_max : option text;
  cache_single : option text;
  lazy_max : option text;
  cache_entries : option nat;
  no_patterns : bool;
  no_trick : bool;
  with_text : bool;
  only_pso : bool;
  timeout : option text;
  rows : option nat;
  throw : bool;
}.

Definition switch (f : string) (b : bool) : list text := if b then [chars f] else [].

(* build_server_cmd, server.rs:155-218; its shell_quote (261-272) is that of the index builder *)
Definition server_argv (cmd name : text) (s : settings) : list text :=
  [cmd; chars "-i"; name; chars "-p"; print (port s)] ++
  option_flag "-a" (fun x => x) (token s) ++
  option_flag "-j" print (queries s) ++
  option_flag "-m" (fun x => x) (memory_max s) ++
  option_flag "-c" (fun x => x) (cache_max s) ++
  option_flag "-e" (fun x => x) (cache_single s) ++
  option_flag "-E" (fun x => x) (lazy_max s) ++
  option_flag "-k" print (cache_entries s) ++
  switch "-P" (no_patterns s) ++ switch "-T" (no_trick s) ++ switch "-t" (with_text s) ++ switch "-o" (only_pso s) ++
  option_flag "-s" (fun x => x) (timeout s) ++
  option_flag "-S" print (rows s) ++
  (if throw s then [chars "--throw-on-unbound-variables"; chars "true"] else []).
Definition server_cmd (cmd name : text) (s : settings) : text := shell_join (server_argv cmd name s).

Section Serve.
Context {L : lib}.

(* QleverServer, server.rs:15-30: the folder, whether this run made the index, auto_delete_if_created *)
Record server := { dir : text; created : bool; auto_delete : bool }.

(* QleverServer::start, server.rs:64-133: nothing is made by this run until mark_created_index says so *)
Definition start (d : text) (auto answers : bool) : option server :=
  if answers then Some {| dir := d; created := false; auto_delete := auto |} else None.

Definition built (w : world) (d n : text) : bool := match index w (d, n) with Some _ => true | None => false end.

(* from_paths, graph_container.rs:65-105 *)
Definition serve_paths (w : world) (l : list source) (cfg : config) (auto answers : bool) : world * option server :=
  match l with
  | [] => (w, None)
  | _ =>
      let (w, is) := inputs_of w (convert_dir cfg l) l in
      match is with
      | None => (w, None)
      | Some is =>
          let already := built w (resolve cfg (stream is)) (index_name cfg) in
          let (w, d) := build_index w is cfg in
          match d with
          | None => (w, None)
          | Some d =>
              (w, match start d auto answers with
                  | Some s => Some {| dir := dir s; created := negb already; auto_delete := auto_delete s |}
                  | None => None
                  end)
          end
      end
  end.

(* open and serve, graph_container.rs:112-125 and 148-151 *)
Definition open_index (w : world) (d n : text) (auto answers : bool) : option server :=
  if built w d n then start d auto answers else None.

(* source_ext, graph_container.rs:530-540 *)
Definition source_ext (r : rdf) : text :=
  chars match r with
        | RTurtle => ".ttl" | RNTriples => ".nt" | RNQuads => ".nq" | RRdfXml => ".rdf"
        | RJsonLd => ".jsonld" | RTriG => ".trig" | RN3 => ".n3"
        end.
(* from_reader, graph_container.rs:128-146, up to the server: a text is written to a new folder tmp, always
   converted, and the result is indexed in the folder that it is in; tmp is deleted at the end *)
Definition from_reader (w : world) (tmp t : text) (r : rdf) (cfg : config) : world * option text :=
  let d := resolve cfg ((tmp ++ slash :: chars "input" ++ source_ext r) ++ [nul]) in
  match to_native r t with
  | None => (w, None)
  | Some u =>
      let n := chars "input." ++ cli_arg (target r) in
      build_index (put_file w (d ++ slash :: n) u)
        [{| folder := d; name := n; format_of := target r; graph := None; packed := None |}]
        {| index_name := index_name cfg; memory := memory cfg; buffer := buffer cfg; parallel := parallel cfg; index_dir := Some d |}
  end.

(* remove_dir_all: all that is in a folder *)
Fixpoint prefix_of (a b : text) : bool :=
  match a, b with
  | [], _ => true
  | x :: a, y :: b => Ascii.eqb x y && prefix_of a b
  | _, _ => false
  end.
Definition in_dir (d p : text) : bool := prefix_of (d ++ [slash]) p.
Definition remove_dir (w : world) (d : text) : world :=
  {| files := fun p => if in_dir d p then None else files w p;
     index := fun k => if in_dir d (fst k ++ [slash]) then None else index w k |}.

(* Drop, server.rs:32-51 *)
Definition drop (w : world) (s : server) : world :=
  if auto_delete s && created s then remove_dir w (dir s) else w.

End Serve.
