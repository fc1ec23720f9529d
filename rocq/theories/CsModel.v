(* Sequences of calls that load schemas, shape maps and shapes, validate, and clear, on one instance
   of Rudof, as made by the shell, the bindings and the commands of validation.

   Source: rudof_lib/src/api/{shex,shacl,pgschema,core}/implementations, shex_validation/src/validator.rs
   and rudof_cli/src/commands/{shex_validate,shacl_validate,pgschema_validate}.rs.

   Simplifications.
   - Parsers, the compiler, engines of validation and loading of data are parameters; the sources
     are texts, and failures of opening and parsing are one.
   - Bases of IRIs are left out, and the prefixes kept within a shape map, which serve to read the
     next association, are those of the data and the schema.
   - A schema has a negative cycle or not (`neg`), for both `neg_cycles` and `has_neg_cycle`.
   - Of the options of the validator, the one on negation is kept apart. *)
From Coq Require Import List String Bool.
Import ListNotations.

(* Errors and `todo!`. *)
Inductive outcome := Done | Error | Panic.
Inductive mode := Strict | Lax.               (* DataReaderMode *)
Inductive syntax := ShExC | ShExJ | OtherSyntax.   (* ShExFormat *)
Inductive layout := Compact | OtherLayout.         (* ShapeMapFormat *)

Class lib := {
  options : Type;
  graph : Type;
  pgraph : Type;
  schema : Type;
  compiled : Type;       (* SchemaIR without the state of Map *)
  mapstate : Type;       (* MapState *)
  no_maps : mapstate;
  selector : Type;
  assoc : Type;          (* Association *)
  results : Type;        (* ResultShapeMap *)
  shacl : Type;          (* IRSchema *)
  report : Type;
  pgschema : Type;
  typemap : Type;
  pgresults : Type;
  read_shexc : list (string * string) -> string -> option schema;
  read_shexj : string -> option schema;
  compile : options -> schema -> option compiled;
  neg : compiled -> bool;
  read_compiled : mode -> string -> option compiled;    (* SchemaIR::read *)
  read_map : graph -> compiled -> string -> option (list assoc);   (* ShapeMapParser::parse *)
  read_selectors : string -> string -> option selector;
  resolve : option graph -> option compiled -> selector -> option assoc;    (* Association::new *)
  run_shex : options -> compiled -> list assoc -> graph -> mapstate -> option results * mapstate;
  read_shacl : list (string * string) -> string -> option shacl;
  shapes_in : graph -> option shacl;
  run_shacl : shacl -> graph -> option report;
  read_pgschema : string -> option pgschema;
  read_typemap : string -> option typemap;
  run_pg : typemap -> pgschema -> pgraph -> option pgresults;
}.

Section Calls.
Context {L : lib}.

Inductive data := Rdf (g : graph) | Pg (p : pgraph).

Record config := { check_neg : bool; others : options }.

Record shex_part := {
  source : option schema;                    (* shex_schema *)
  ir : option (compiled * mapstate);         (* shex_schema_ir with its shared state of Map *)
  validator : option (compiled * config);    (* shex_validator *)
  smap : option (list assoc);                (* shapemap *)
  judged : option results;                   (* shex_validation_results *)
  maps : option mapstate;                    (* map_state *)
}.

Record shacl_part := { shapes : option shacl; found : option report }.

Record pg_part := { types : option pgschema; tmap : option typemap; checked : option pgresults }.

(* rudof_lib/src/rudof.rs:84-144 *)
Record state := {
  cfg : config;
  defaults : list (string * string);
  loaded : option data;
  shex : shex_part;
  shac : shacl_part;
  pgs : pg_part;
}.

Definition with_data (st : state) (d : option data) : state :=
  {| cfg := cfg st; defaults := defaults st; loaded := d; shex := shex st; shac := shac st; pgs := pgs st |}.
Definition with_shex (st : state) (x : shex_part) : state :=
  {| cfg := cfg st; defaults := defaults st; loaded := loaded st; shex := x; shac := shac st; pgs := pgs st |}.
Definition with_shac (st : state) (x : shacl_part) : state :=
  {| cfg := cfg st; defaults := defaults st; loaded := loaded st; shex := shex st; shac := x; pgs := pgs st |}.
Definition with_pgs (st : state) (x : pg_part) : state :=
  {| cfg := cfg st; defaults := defaults st; loaded := loaded st; shex := shex st; shac := shac st; pgs := x |}.

(* rudof_lib/src/api/core/implementations/new.rs:3-26 *)
Definition new (c : config) : state :=
  {| cfg := c; defaults := []; loaded := None;
     shex := {| source := None; ir := None; validator := None; smap := None; judged := None; maps := None |};
     shac := {| shapes := None; found := None |};
     pgs := {| types := None; tmap := None; checked := None |} |}.

Definition graph_of (st : state) : option graph :=
  match loaded st with
  | Some (Rdf g) => Some g
  | _ => None
  end.

Definition maps_of (st : state) : mapstate :=
  match maps (shex st) with
  | Some m => m
  | None => no_maps
  end.

(* Validator::with_neg_cycle_check, shex_validation/src/validator.rs:44-88 *)
Definition make_validator (i : compiled) (c : config) (check : bool) : option (compiled * config) :=
  if check && check_neg c && neg i then None else Some (i, c).

(* compile_shex_schema, load_shex_schema.rs:139-193 *)
Definition compile_shex (st : state) (s : schema) (m : mode) : state * outcome :=
  match compile (others (cfg st)) s with
  | None => (st, Error)
  | Some i =>
      if match m with Strict => neg i | Lax => false end then (st, Error)
      else match make_validator i (cfg st) true with
           | None => (st, Error)
           | Some v =>
               (with_shex st {| source := Some s; ir := Some (i, maps_of st); validator := Some v;
                                smap := smap (shex st); judged := judged (shex st); maps := maps (shex st) |}, Done)
           end
  end.

(* load_shex_schema, load_shex_schema.rs:22-137 *)
Definition load_shex (st : state) (f : syntax) (src : string) (m : mode) : state * outcome :=
  match f with
  | ShExC => match read_shexc (defaults st) src with
             | Some s => compile_shex st s m
             | None => (st, Error)
             end
  | ShExJ => match read_shexj src with
             | Some s => compile_shex st s m
             | None => (st, Error)
             end
  | OtherSyntax => (st, Panic)
  end.

(* load_shex_schema_precompiled, load_shex_schema_precompiled.rs:13-52 *)
Definition load_compiled (st : state) (src : string) (m : mode) : state * outcome :=
  match read_compiled m src with
  | None => (st, Error)
  | Some i =>
      match make_validator i (cfg st) false with
      | None => (st, Error)
      | Some v =>
          (with_shex st {| source := None; ir := Some (i, maps_of st); validator := Some v;
                           smap := smap (shex st); judged := judged (shex st); maps := maps (shex st) |}, Done)
      end
  end.

Definition with_smap (st : state) (q : option (list assoc)) : state :=
  with_shex st {| source := source (shex st); ir := ir (shex st); validator := validator (shex st);
                  smap := q; judged := judged (shex st); maps := maps (shex st) |}.

(* load_shapemap, load_shapemap.rs:15-98 *)
Definition load_map (st : state) (f : layout) (src : string) : state * outcome :=
  match graph_of st, validator (shex st) with
  | Some g, Some (i, _) =>
      match f with
      | Compact => match read_map g i src with
                   | Some q => (with_smap st (Some q), Done)
                   | None => (st, Error)
                   end
      | OtherLayout => (st, Panic)
      end
  | _, _ => (st, Error)
  end.

(* add_node_shape_to_shapemap, add_node_shape_to_shapemap.rs:9-67 *)
Definition add_node (st : state) (n s : string) : state * outcome :=
  match read_selectors n s with
  | None => (st, Error)
  | Some x =>
      let q := match smap (shex st) with Some q => q | None => [] end in
      match resolve (graph_of st) (option_map fst (validator (shex st))) x with
      | Some a => (with_smap st (Some (q ++ [a])), Done)
      | None => (with_smap st (Some q), Error)
      end
  end.

(* validate_shex, validate_shex.rs:10-62 *)
Definition validate_shex (st : state) : state * outcome :=
  match graph_of st, ir (shex st), validator (shex st), smap (shex st) with
  | Some g, Some (i, m), Some (_, c), Some q =>
      let '(r, m') := run_shex (others c) i q g m in
      let x := shex st in
      match r with
      | Some r => (with_shex st {| source := source x; ir := Some (i, m'); validator := validator x; smap := smap x;
                                   judged := Some r; maps := Some m' |}, Done)
      | None => (with_shex st {| source := source x; ir := Some (i, m'); validator := validator x; smap := smap x;
                                 judged := judged x; maps := maps x |}, Error)
      end
  | _, _, _, _ => (st, Error)
  end.

(* check_shex_schema, check_shex_schema.rs:9-86; only the verdict *)
Definition check_shex (st : state) (f : syntax) (src : string) : bool :=
  let fresh := new {| check_neg := false; others := others (cfg st) |} in
  match load_shex fresh f src Lax with
  | (st', Done) => match ir (shex st') with
                   | Some (i, _) => negb (neg i)
                   | None => false
                   end
  | _ => false
  end.

(* load_shacl_schema, load_shacl_schema.rs:14-139 *)
Definition load_shacl (st : state) (src : option string) : state * outcome :=
  match match src with
        | Some s => read_shacl (defaults st) s
        | None => match graph_of st with Some g => shapes_in g | None => None end
        end with
  | Some s => (with_shac st {| shapes := Some s; found := found (shac st) |}, Done)
  | None => (st, Error)
  end.

(* validate_shacl, validate_shacl.rs:11-39 *)
Definition validate_shacl (st : state) : state * outcome :=
  match graph_of st, shapes (shac st) with
  | Some g, Some s =>
      match run_shacl s g with
      | Some r => (with_shac st {| shapes := Some s; found := Some r |}, Done)
      | None => (st, Error)
      end
  | _, _ => (st, Error)
  end.

(* load_pgschema.rs:5-39, load_typemap.rs:6-36 and validate_pgschema.rs:8-36 *)
Definition load_pgschema (st : state) (src : string) : state * outcome :=
  match read_pgschema src with
  | Some t => (with_pgs st {| types := Some t; tmap := tmap (pgs st); checked := checked (pgs st) |}, Done)
  | None => (st, Error)
  end.

Definition load_typemap (st : state) (src : string) : state * outcome :=
  match read_typemap src with
  | Some t => (with_pgs st {| types := types (pgs st); tmap := Some t; checked := checked (pgs st) |}, Done)
  | None => (st, Error)
  end.

Definition validate_pg (st : state) : state * outcome :=
  match loaded st, types (pgs st), tmap (pgs st) with
  | Some (Pg p), Some t, Some m =>
      match run_pg m t p with
      | Some r => (with_pgs st {| types := Some t; tmap := Some m; checked := Some r |}, Done)
      | None => (st, Error)
      end
  | _, _, _ => (st, Error)
  end.

(* update_config.rs:3-5 *)
Definition update_config (st : state) (c : config) : state :=
  {| cfg := c; defaults := defaults st; loaded := loaded st; shex := shex st; shac := shac st; pgs := pgs st |}.

(* reset_shex.rs:3-9 *)
Definition reset_shex (st : state) : state :=
  with_shex st {| source := None; ir := None; validator := None; smap := None; judged := None;
                  maps := maps (shex st) |}.

(* reset_shacl_validation.rs:3-6 *)
Definition reset_shacl (st : state) : state := with_shac st {| shapes := None; found := None |}.

(* reset_pgschema_validation.rs:3-7 *)
Definition reset_pg (st : state) : state :=
  with_smap (with_pgs st {| types := None; tmap := tmap (pgs st); checked := None |}) None.

Inductive call :=
| LoadData (d : data)      (* data that are read without error; failures are those of LdModel.v *)
| LoadShex (f : syntax) (src : string) (m : mode)
| LoadCompiled (src : string) (m : mode)
| LoadMap (f : layout) (src : string)
| AddNode (n s : string)
| ValidateShex
| LoadShacl (src : option string)
| ValidateShacl
| LoadPgSchema (src : string)
| LoadTypemap (src : string)
| ValidatePg
| UpdateConfig (c : config)
| ResetShex
| ResetShacl
| ResetPg.

Definition step (st : state) (o : call) : state * outcome :=
  match o with
  | LoadData d => (with_data st (Some d), Done)
  | LoadShex f src m => load_shex st f src m
  | LoadCompiled src m => load_compiled st src m
  | LoadMap f src => load_map st f src
  | AddNode n s => add_node st n s
  | ValidateShex => validate_shex st
  | LoadShacl src => load_shacl st src
  | ValidateShacl => validate_shacl st
  | LoadPgSchema src => load_pgschema st src
  | LoadTypemap src => load_typemap st src
  | ValidatePg => validate_pg st
  | UpdateConfig c => (update_config st c, Done)
  | ResetShex => (reset_shex st, Done)
  | ResetShacl => (reset_shacl st, Done)
  | ResetPg => (reset_pg st, Done)
  end.

(* Calls one after another up to the first that is not done, as with `?`. *)
Fixpoint perform (st : state) (l : list call) : state * outcome :=
  match l with
  | [] => (st, Done)
  | o :: l => match step st o with
              | (st', Done) => perform st' l
              | (st', e) => (st', e)
              end
  end.

(* ShexValidateCommand::execute, shex_validate.rs:32-148, up to showing the results *)
Definition shex_command (d : option data) (s : option (syntax * string * mode)) (q : option string)
  (n : option (string * string)) : list call :=
  match d with Some d => [LoadData d] | None => [] end ++
  match s with Some (f, src, m) => [LoadShex f src m] | None => [] end ++
  match q with Some q => [LoadMap Compact q] | None => [] end ++
  match n with Some (n, s) => [AddNode n s] | None => [] end ++
  [ValidateShex].

(* ShaclValidateCommand::execute, shacl_validate.rs:30-85 *)
Definition shacl_command (d : option data) (s : option string) : list call :=
  match d with Some d => [LoadData d] | None => [] end ++
  match d, s with None, None => [] | _, _ => [LoadShacl s] end ++
  [ValidateShacl].

(* PgschemaValidateCommand::execute, pgschema_validate.rs:34-61 *)
Definition pg_command (d : option data) (s t : option string) : list call :=
  match d with Some d => [LoadData d] | None => [] end ++
  match s with Some s => [LoadPgSchema s] | None => [] end ++
  match t with Some t => [LoadTypemap t] | None => [] end ++
  [ValidatePg].

End Calls.
