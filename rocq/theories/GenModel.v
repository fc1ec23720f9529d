(* Generating data from ShEx schemas.

   rudof_generate/src/converters/shex_to_unified.rs:55-248, unified_constraints.rs:4-92, lib.rs:180-262
   (convert_unified_to_shape_infos), shape_processing.rs:11-46, 86-229, parallel_generation.rs:34-704, config.rs:21-142,
   field_generators/mod.rs:74-107, registry.rs:30-60, 74-90, basic.rs:47-70, 101-122.

   Simplifications.
   - The syntax tree is that of SjModel. A map is the list of its entries and [put] replaces the entry of the key; walks over
     maps are in the order that [ord] makes of the entries.
   - Random numbers are those of a source [rand]: the n-th draw is [rand n], reduced to the range that is asked for. A number
     between 0 and 1 is a multiple of 2^-53. Shuffling inserts every element at a random place.
   - Numbers of type f64 are rationals (property_fill_probability, property_count_variance, weights).
   - The texts made by the generators for strings, decimals, dates and IRIs are those of a function [text] of [glib], and so are
     the numbers that texts are parsed as. There are no generators set for single properties or datatypes, as by default.
   - The errors are one value. The graph is the list of the triples that are added to it, read as a set.
   - The generator is new: no entities have been generated before. The seed is not used by the code.
   - Indices of entities and lengths of lists are smaller than 2^64. [checks] tells if arithmetic is checked for overflow. *)
From Coq Require Import List String Ascii Bool ZArith QArith Qround Decimal DecimalString.
Import ListNotations.
From Verif Require Import SjModel CoModel.
Open Scope string_scope.

(* ------------------------------------------------------------------ *)
(* Types                                                                *)

(* unified_constraints.rs:53-58 *)
Inductive uvalue : Type := UIri (s : string) | ULit (s : string) (dt : option string) | UBNode (s : string).

(* unified_constraints.rs:43-51 *)
Inductive ukind : Type := UKIri | UKBNode | UKLiteral | UKBNodeOrIri | UKBNodeOrLiteral | UKIriOrLiteral.

(* unified_constraints.rs:27-41 *)
Inductive ucons : Type :=
| CDatatype (s : string)
| CShapeRef (s : string)
| CKind (k : ukind)
| CPattern (s : string)
| CMinIn (v : uvalue)
| CMaxIn (v : uvalue)
| CMinEx (v : uvalue)
| CMaxEx (v : uvalue)
| CMinLength (n : Z)
| CMaxLength (n : Z)
| CIn (vs : list uvalue)
| CHasValue (v : uvalue).

(* unified_constraints.rs:19-25 *)
Record uprop : Type := { u_iri : string; u_cons : list ucons; u_min : option Z; u_max : option Z }.
(* unified_constraints.rs:11-17; the target class is None for ShEx *)
Record ushape : Type := { u_id : string; u_props : list uprop; u_closed : bool }.

(* shape_processing.rs:28-36 *)
Record prop : Type := {
  p_iri : string; p_datatype : option string; p_ref : option string; p_min : option Z; p_max : option Z; p_cons : list ucons }.
(* shape_processing.rs:19-25 *)
Record dep : Type := { dp_target : string; dp_prop : string; dp_min : option Z; dp_max : option Z }.
(* shape_processing.rs:11-16; of the declaration only the label is used *)
Record info : Type := { i_id : string; i_deps : list dep; i_props : list prop }.

(* config.rs:80-86, 125-142 *)
Inductive selection : Type := SelAll | SelRandom | SelWeighted.
Inductive strategy : Type := Minimum | Maximum | Random | Balanced.
(* config.rs:115-123 *)
Inductive distribution : Type := Equal | Weighted (ws : list (string * Q)) | Custom (cs : list (string * Z)).
(* config.rs:88-97 *)
Record override : Type := {
  o_fill : option Q; o_ignore : option bool; o_limit : option Z; o_sel : option selection; o_variance : option Q;
  o_excluded : option (list string) }.
(* config.rs:21-60 *)
Record config : Type := {
  c_count : Z; c_distribution : distribution; c_strategy : strategy; c_fill : Q; c_ignore : bool; c_limit : Z;
  c_sel : selection; c_variance : Q; c_excluded : list string; c_overrides : list (string * override) }.

(* oxrdf terms; no blank nodes are made *)
Inductive term : Type := TmIri (s : string) | TmLit (s dt : string).
Record triple : Type := { tr_s : string; tr_p : string; tr_o : term }.

(* serde_json values used as parameters *)
Inductive param : Type := PInt (z : Z) | PReal (q : Q) | PStr (s : string) | PList (l : list (option string)).
Definition params := list (string * param).

(* What is taken from libraries and from the other generators *)
Class glib {L : lib} : Type := GLib {
  (* Display of the numbers of facets *)
  show_fnum : fnum -> string;
  (* str::parse::<i64> and str::parse::<f64> *)
  parse_i64 : string -> option Z;
  parse_f64 : string -> option Q;
  (* basic.rs:72-99, 124-227, pattern.rs: the text made for a datatype, a property and parameters *)
  text : string -> string -> params -> N -> res string
}.

Definition show_z (z : Z) : string := NilZero.string_of_int (Z.to_int z).
Definition rdf_type : string := "http://www.w3.org/1999/02/22-rdf-syntax-ns#type".

(* Casts: `as i32` of 32 and 64 bits, `as u32`, `as usize` *)
Definition as_i32 (z : Z) : Z := let m := (z mod 2 ^ 32)%Z in if (m <? 2 ^ 31)%Z then m else (m - 2 ^ 32)%Z.
Definition as_u32 (z : Z) : Z := (z mod 2 ^ 32)%Z.
Definition as_usize (z : Z) : Z := (z mod 2 ^ 64)%Z.

Section Convert.
Context {L : lib} {G : glib}.
Variable ord : forall A : Type, list (string * A) -> list (string * A).
Arguments ord {A} _.

(* ------------------------------------------------------------------ *)
(* From ShEx to unified constraints                                     *)

(* shex_to_unified.rs:238-248 *)
Definition convert_cardinality (mn mx : option Z) : option Z * option Z :=
  (match mn with None => Some 1%Z | Some m => if (0 <=? m)%Z then Some m else Some 0%Z end,
   match mx with Some m => if (0 <=? m)%Z then Some m else None | None => None end).

(* shex_to_unified.rs:191-236 *)
Definition convert_facet (f : facet) : list ucons :=
  match f with
  | FPattern s _ => [CPattern s]
  | FMinLength n => [CMinLength (as_u32 (Z.of_N n))]
  | FMaxLength n => [CMaxLength (as_u32 (Z.of_N n))]
  | FLength _ => []
  | FMinIn n => [CMinIn (ULit (show_fnum n) None)]
  | FMaxIn n => [CMaxIn (ULit (show_fnum n) None)]
  | FMinEx n => [CMinEx (ULit (show_fnum n) None)]
  | FMaxEx n => [CMaxEx (ULit (show_fnum n) None)]
  | FTotal _ | FFraction _ => []
  end.

(* shex_to_unified.rs:147-189 *)
Definition convert_node_constraint (n : nodec) : list ucons :=
  (match n_datatype n with Some d => [CDatatype (show_iri d)] | None => [] end ++
   match n_kind n with
   | Some k => [CKind match k with NIri => UKIri | NBNode => UKBNode | NLiteral => UKLiteral | NNonLiteral => UKBNodeOrIri end]
   | None => []
   end ++
   match n_facets n with Some fs => flat_map convert_facet fs | None => [] end)%list.

(* shex_to_unified.rs:85-145 *)
Fixpoint extract_properties (te : texpr) : list uprop :=
  match te with
  | TEach _ l _ _ _ _ | TOne _ l _ _ _ _ => flat_map extract_properties l
  | TTriple _ _ _ p ve mn mx _ _ =>
      let cs := match ve with
                | Some (SRef r) => [CShapeRef (show_label r)]
                | Some (SNode n) => convert_node_constraint n
                | _ => []
                end in
      [{| u_iri := show_iri p; u_cons := cs; u_min := fst (convert_cardinality mn mx); u_max := snd (convert_cardinality mn mx) |}]
  | TRef _ => []
  end.

(* shex_to_unified.rs:67-83 *)
Definition convert_decl (d : decl) : ushape :=
  {| u_id := show_label (d_id d);
     u_props := match d_expr d with SShape _ _ (Some te) _ _ _ => extract_properties te | _ => [] end;
     u_closed := false |}.

(* shex_to_unified.rs:55-65, unified_constraints.rs:68-83 *)
Definition convert_shapes (ds : list decl) : list (string * ushape) :=
  fold_left (fun m d => put (u_id (convert_decl d)) (convert_decl d) m) ds [].

(* lib.rs:201-235 *)
Definition datatype_of (cs : list ucons) : option string :=
  fold_right (fun c r => match c with CDatatype d => Some d | _ => r end) None cs.
Definition refs_of (cs : list ucons) : list string := flat_map (fun c => match c with CShapeRef r => [r] | _ => [] end) cs.
Definition to_prop (p : uprop) : prop :=
  {| p_iri := u_iri p; p_datatype := datatype_of (u_cons p); p_ref := hd_error (refs_of (u_cons p));
     p_min := option_map as_i32 (u_min p); p_max := option_map as_i32 (u_max p); p_cons := u_cons p |}.
Definition to_deps (p : uprop) : list dep :=
  List.map (fun r => {| dp_target := r; dp_prop := u_iri p; dp_min := option_map as_i32 (u_min p);
                        dp_max := option_map as_i32 (u_max p) |}) (refs_of (u_cons p)).
(* lib.rs:238-244 *)
Definition info_id (s : string) : string := if iri_ok s then s else "http://example.org/shape".
(* lib.rs:190-262 *)
Definition to_infos (m : list (string * ushape)) : list info :=
  List.map (fun e => {| i_id := info_id (fst e); i_deps := flat_map to_deps (u_props (snd e)); i_props := List.map to_prop (u_props (snd e)) |})
    (ord m).

(* ------------------------------------------------------------------ *)
(* From ShEx to shape information directly, for [load_schema]           *)

Definition xsd_string : string := xsd "string".

(* shape_processing.rs:147-150 *)
Definition legacy_cardinality (mn mx : option Z) : option Z * option Z :=
  match mn, mx with None, None => (Some 1%Z, Some 1%Z) | _, _ => (mn, mx) end.

(* shape_processing.rs:133-224: the properties, and the dependencies *)
Fixpoint legacy_properties (te : texpr) : list prop :=
  match te with
  | TEach _ l _ _ _ _ | TOne _ l _ _ _ _ => flat_map legacy_properties l
  | TTriple _ _ _ p ve mn mx _ _ =>
      [{| p_iri := show_iri p;
          p_datatype := match ve with
                        | Some (SRef _) => None
                        | Some (SNode n) => match n_datatype n with Some d => Some (show_iri d) | None => Some xsd_string end
                        | _ => Some xsd_string
                        end;
          p_ref := match ve with Some (SRef r) => Some (show_label r) | _ => None end;
          p_min := fst (legacy_cardinality mn mx); p_max := snd (legacy_cardinality mn mx); p_cons := [] |}]
  | TRef _ => []
  end.
Definition legacy_deps (ps : list prop) : list dep :=
  flat_map (fun p => match p_ref p with
                     | Some r => [{| dp_target := r; dp_prop := p_iri p; dp_min := p_min p; dp_max := p_max p |}]
                     | None => [] end) ps.
(* shape_processing.rs:114-130, 86-111, lib.rs:64-73 *)
Definition legacy_info (d : decl) : info :=
  let ps := match d_expr d with SShape _ _ (Some te) _ _ _ => legacy_properties te | _ => [] end in
  {| i_id := show_label (d_id d); i_deps := legacy_deps ps; i_props := ps |}.
Definition legacy_infos (ds : list decl) : list info :=
  List.map snd (ord (fold_left (fun m d => put (i_id (legacy_info d)) (legacy_info d) m) ds [])).

(* parallel_generation.rs:35-46 *)
Definition set_shapes (is : list info) : list (string * info) := fold_left (fun m i => put (i_id i) i m) is [].
End Convert.

Section Generator.
Context {L : lib} {G : glib}.
Variable ord : forall A : Type, list (string * A) -> list (string * A).
Arguments ord {A} _.
Variable checks : bool.
Variable rand : nat -> N.

(* ------------------------------------------------------------------ *)
(* Random draws; panics and errors                                      *)

Definition M (A : Type) : Type := nat -> res (A * nat).
Definition ret {A} (a : A) : M A := fun n => Ok (a, n).
Definition panic {A} : M A := fun _ => Panic.
Definition bind {A B} (x : M A) (f : A -> M B) : M B :=
  fun n => match x n with Ok (a, n) => f a n | Err => Err | Panic => Panic end.
Definition lift {A} (x : res A) : M A := fun n => rmap (fun a => (a, n)) x.
Definition draw : M N := fun n => Ok (rand n, S n).
Fixpoint each {A B} (l : list A) (f : A -> M (list B)) : M (list B) :=
  match l with [] => ret [] | a :: l => bind (f a) (fun x => bind (each l f) (fun y => ret (x ++ y)%list)) end.

(* rng.gen_range(lo..=hi) *)
Definition gen_range (lo hi : Z) : M Z :=
  if (lo <=? hi)%Z then bind draw (fun r => ret (lo + Z.of_N r mod (hi - lo + 1))%Z) else panic.
(* rng.gen::<f64>() *)
Definition unit_interval : M Q := bind draw (fun r => ret (Z.of_N r mod 2 ^ 53 # (2 ^ 53))%Q).
(* SliceRandom::shuffle *)
Fixpoint shuffle {A} (l : list A) : M (list A) :=
  match l with
  | [] => ret []
  | a :: l => bind (shuffle l) (fun l =>
      bind (gen_range 0 (Z.of_nat (List.length l))) (fun i => ret (firstn (Z.to_nat i) l ++ a :: skipn (Z.to_nat i) l)%list))
  end.

(* usize arithmetic *)
Definition sub (a b : Z) : M Z := if (b <=? a)%Z then ret (a - b)%Z else if checks then panic else ret (a - b + 2 ^ 64)%Z.
Definition add (a b : Z) : M Z :=
  if (a + b <? 2 ^ 64)%Z then ret (a + b)%Z else if checks then panic else ret (a + b - 2 ^ 64)%Z.
Definition rem (a b : Z) : M Z := if (b =? 0)%Z then panic else ret (a mod b)%Z.

(* ------------------------------------------------------------------ *)
(* How many values                                                      *)

(* parallel_generation.rs:407-426 and 552-572 *)
Definition choose (st : strategy) (mn mx idx : Z) : M Z :=
  match st with
  | Minimum => ret mn
  | Maximum => ret mx
  | Random => if (mn =? mx)%Z then ret mn else gen_range mn mx
  | Balanced =>
      if (mn =? mx)%Z then ret mn
      else bind (sub mx mn) (fun d => bind (add d 1) (fun d => bind (rem idx d) (fun r => add mn r)))
  end.

(* parallel_generation.rs:391-405 *)
Definition value_count (st : strategy) (ignore : bool) (mn mx : option Z) (idx : Z) : M Z :=
  let raw := Z.max (match mn with Some m => m | None => 1 end) 0 in
  let mn := if ignore then 0%Z else raw in
  let mx := match mx with
            | Some m => if (m =? -1)%Z then 5%Z else Z.max (as_usize m) mn
            | None => 1%Z
            end in
  choose st mn mx idx.

(* parallel_generation.rs:536-550 *)
Definition relationship_count (st : strategy) (mn mx : option Z) (available idx : Z) : M Z :=
  let mn := Z.max (match mn with Some m => m | None => 1 end) 0 in
  let mx := match mx with
            | Some m => if (m =? -1)%Z then Z.min available 20 else Z.min (as_usize m) available
            | None => Z.min 1 available
            end in
  choose st mn (Z.max mx mn) idx.

(* ------------------------------------------------------------------ *)
(* Values                                                               *)

(* i64 arithmetic *)
Definition i64 (z : Z) : M Z :=
  if (- 2 ^ 63 <=? z)%Z && (z <? 2 ^ 63)%Z then ret z
  else if checks then panic else ret ((z + 2 ^ 63) mod 2 ^ 64 - 2 ^ 63)%Z.

(* parallel_generation.rs:641-668 *)
Definition bound_param (key : string) (v : uvalue) (di : Z) (df : Q) (ps : params) : M params :=
  match v with
  | ULit s _ =>
      match parse_i64 s with
      | Some i => bind (i64 (i + di)) (fun i => ret (put key (PInt i) ps))
      | None => match parse_f64 s with Some f => ret (put key (PReal (f + df)) ps) | None => ret ps end
      end
  | _ => ret ps
  end.
(* parallel_generation.rs:636-703 *)
Definition add_param (ps : params) (c : ucons) : M params :=
  match c with
  | CMinIn v => bound_param "min" v 0 0 ps
  | CMaxIn v => bound_param "max" v 0 0 ps
  | CMinEx v => bound_param "min" v 1 (1 # 1000) ps
  | CMaxEx v => bound_param "max" v (-1) (-1 # 1000) ps
  | CMinLength n => ret (put "min_length" (PInt n) ps)
  | CMaxLength n => ret (put "max_length" (PInt n) ps)
  | CPattern s => ret (put "pattern" (PStr s) ps)
  | CIn vs => ret (put "values" (PList (List.map (fun v => match v with ULit s _ | UIri s => Some s | UBNode _ => None end) vs)) ps)
  | CHasValue (ULit s _) | CHasValue (UIri s) => ret (put "fixed_value" (PStr s) ps)
  | CHasValue (UBNode _) => ret ps
  | CDatatype _ | CShapeRef _ | CKind _ => ret ps
  end.
Definition parameters (cs : list ucons) : M params :=
  fold_left (fun m c => bind m (fun ps => add_param ps c)) cs (ret []).

(* basic.rs:55-58: Value::as_i64, `as i32` *)
Definition int_param (key : string) (default : Z) (ps : params) : Z :=
  as_i32 (match lookup key ps with Some (PInt z) => z | _ => default end).
(* basic.rs:50-62 *)
Definition integer_value (ps : params) : M string :=
  bind (gen_range (int_param "min" (-1000) ps) (int_param "max" 10000 ps)) (fun z => ret (show_z z)).
(* basic.rs:104-116; nothing sets true_probability *)
Definition boolean_value : M string := bind draw (fun r => ret (if N.even r then "true" else "false")).
(* mod.rs:74-107, registry.rs:47-60, 74-90: of the two generators for strings the second counts *)
Definition generate_field (datatype property : string) (ps : params) : M string :=
  if String.eqb datatype (xsd "integer") then integer_value ps
  else if String.eqb datatype (xsd "boolean") then boolean_value
  else if existsb (String.eqb datatype) [xsd "string"; xsd "decimal"; xsd "date"; xsd "dateTime"; xsd "anyURI"]
  then bind draw (fun r => lift (text datatype property ps r))
  else lift Err.
(* parallel_generation.rs:430-468 *)
Definition create_typed_literal (value datatype : string) : term :=
  if existsb (String.eqb datatype)
       [xsd "string"; xsd "integer"; xsd "decimal"; xsd "boolean"; xsd "date"; xsd "dateTime"; xsd "anyURI"]
  then TmLit value datatype else TmLit value (xsd "string").

(* ------------------------------------------------------------------ *)
(* Entities                                                             *)

Variable cfg : config.
Variable shapes : list (string * info).

(* 0..n *)
Definition upto (n : Z) : list Z := List.map Z.of_nat (seq 0 (Z.to_nat n)).

(* parallel_generation.rs:186-210 *)
Definition effective (id : string) : config :=
  match lookup id (c_overrides cfg) with
  | Some o =>
      let or {A} (x : option A) (d : A) := match x with Some a => a | None => d end in
      {| c_count := c_count cfg; c_distribution := c_distribution cfg; c_strategy := c_strategy cfg;
         c_fill := or (o_fill o) (c_fill cfg); c_ignore := or (o_ignore o) (c_ignore cfg); c_limit := or (o_limit o) (c_limit cfg);
         c_sel := or (o_sel o) (c_sel cfg); c_variance := or (o_variance o) (c_variance cfg);
         c_excluded := or (o_excluded o) (c_excluded cfg); c_overrides := c_overrides cfg |}
  | None => cfg
  end.

(* parallel_generation.rs:592-632 *)
Definition nested_entity (node : string) (i : info) (idx : Z) : M (list triple) :=
  bind (each (i_props i) (fun p =>
          match p_ref p, p_datatype p with
          | None, Some dt =>
              bind (value_count (c_strategy cfg) (c_ignore cfg) (p_min p) (p_max p) idx) (fun k =>
              each (upto k) (fun _ =>
                bind (generate_field dt (p_iri p) []) (fun v =>
                ret [{| tr_s := node; tr_p := p_iri p; tr_o := create_typed_literal v dt |}])))
          | _, _ => ret []
          end))
       (fun ts => ret ({| tr_s := node; tr_p := rdf_type; tr_o := TmIri (i_id i) |} :: ts)).

(* parallel_generation.rs:324-385 *)
Definition property_triples (c : config) (node : string) (idx : Z) (p : prop) : M (list triple) :=
  bind (value_count (c_strategy cfg) (c_ignore c) (p_min p) (p_max p) idx) (fun k =>
  each (upto k) (fun v =>
    match p_ref p, p_datatype p with
    | Some r, _ =>
        let nested := r ++ "-" ++ show_z idx ++ "-" ++ show_z v in
        bind (match lookup r shapes with Some i => nested_entity nested i idx | None => ret [] end) (fun ts =>
        ret ({| tr_s := node; tr_p := p_iri p; tr_o := TmIri nested |} :: ts))
    | None, Some dt =>
        bind (parameters (p_cons p)) (fun ps =>
        bind (generate_field dt (p_iri p) ps) (fun s =>
        ret [{| tr_s := node; tr_p := p_iri p; tr_o := create_typed_literal s dt |}]))
    | None, None => ret []
    end)).

(* f64::round, of numbers that are not negative *)
Definition round (q : Q) : Z := Qfloor (q + (1 # 2)).
Definition clamp (q : Q) : Q := if Qle_bool q 0 then 0 else if Qle_bool 1 q then 1 else q.

(* parallel_generation.rs:231-241; gen_range(-v..=v) of rationals *)
Definition probability (c : config) : M Q :=
  if Qle_bool (c_variance c) 0 then ret (clamp (c_fill c))
  else bind unit_interval (fun u => ret (clamp (c_fill c * (1 + (2 * u - 1) * c_variance c)))).

(* parallel_generation.rs:243-262 *)
Definition mandatory (c : config) (p : prop) : bool :=
  (0 <? (if c_ignore c then 0 else match p_min p with Some m => m | None => 0 end))%Z.
Definition available (c : config) (ps : list prop) : list prop :=
  filter (fun p => negb (existsb (String.eqb (p_iri p)) (c_excluded c))) ps.

(* parallel_generation.rs:264-309 *)
Definition select (c : config) (prob : Q) (total : Z) (must may : list prop) : M (list prop) :=
  match c_sel c with
  | SelAll | SelWeighted =>
      each may (fun p => bind unit_interval (fun roll => ret (if Qle_bool roll prob then [p] else [])))
  | SelRandom =>
      let target := round (prob * inject_Z total) in
      let slots := Z.min (Z.max (target - Z.of_nat (List.length must)) 0) (Z.of_nat (List.length may)) in
      if (0 <? slots)%Z then bind (shuffle may) (fun l => ret (firstn (Z.to_nat slots) l)) else ret []
  end.

(* parallel_generation.rs:314-320 *)
Definition limit (c : config) (ps : list prop) : M (list prop) :=
  if (0 <? c_limit c)%Z && (c_limit c <? Z.of_nat (List.length ps))%Z
  then bind (shuffle ps) (fun ps => ret (firstn (Z.to_nat (c_limit c)) ps)) else ret ps.

Definition entity_iri (id : string) (n : Z) : string := id ++ "-" ++ show_z n.

(* parallel_generation.rs:213-388 *)
Definition single_entity (i : info) (idx : Z) : M (list triple) :=
  let node := entity_iri (i_id i) (idx + 1) in
  let c := effective (i_id i) in
  bind (probability c) (fun prob =>
  let ps := available c (i_props i) in
  let must := filter (mandatory c) ps in
  let may := filter (fun p => negb (mandatory c p)) ps in
  bind (select c prob (Z.of_nat (List.length (i_props i))) must may) (fun chosen =>
  bind (limit c (chosen ++ must)%list) (fun ps =>
  bind (each ps (property_triples c node idx)) (fun ts =>
  ret ({| tr_s := node; tr_p := rdf_type; tr_o := TmIri (i_id i) |} :: ts))))).

(* parallel_generation.rs:138-183: the triples, and the entities; the batches only group them *)
Definition shape_entities (id : string) (count : Z) : M (list triple) :=
  match lookup id shapes with
  | Some i => each (upto count) (single_entity i)
  | None => lift Err
  end.
Definition entities_of (id : string) (count : Z) : list string := List.map (fun k => entity_iri id (k + 1)) (upto count).

(* parallel_generation.rs:95-135; `as usize` makes 0 of a negative number *)
Definition counts : res (list (string * Z)) :=
  let keys := List.map fst (ord shapes) in
  match c_distribution cfg with
  | Equal =>
      let n := Z.of_nat (List.length shapes) in
      if (n =? 0)%Z then Ok []
      else
        let base := (c_count cfg / n)%Z in
        let rest := (c_count cfg mod n)%Z in
        Ok (List.map (fun e => (snd e, if (Z.of_nat (fst e) <? rest)%Z then base + 1 else base)%Z)
              (combine (seq 0 (List.length keys)) keys))
  | Weighted ws =>
      let total := fold_right (fun e s => snd e + s) 0 ws in
      if Qle_bool total 0 then Err
      else Ok (List.map (fun id =>
             let w := match lookup id ws with Some w => w | None => 1 end in
             (id, Z.max 0 (round (w / total * inject_Z (c_count cfg))))) keys)
  | Custom cs => Ok (List.map (fun id => (id, match lookup id cs with Some n => n | None => 0%Z end)) keys)
  end.

(* parallel_generation.rs:489-533 *)
Definition relationships_for (from to : list string) (d : dep) : M (list triple) :=
  each (combine (upto (Z.of_nat (List.length from))) from) (fun e =>
    let n := Z.of_nat (List.length to) in
    if (n =? 0)%Z then ret []
    else
      bind (relationship_count (c_strategy cfg) (dp_min d) (dp_max d) n (fst e)) (fun k =>
      each (upto k) (fun j =>
        ret (match nth_error to (Z.to_nat ((fst e + j) mod n)) with
             | Some t => [{| tr_s := snd e; tr_p := dp_prop d; tr_o := TmIri t |}]
             | None => []
             end)))).

(* parallel_generation.rs:471-486 *)
Definition relationships (generated : list (string * list string)) : M (list triple) :=
  each (ord shapes) (fun e =>
    match lookup (fst e) generated with
    | Some from =>
        each (i_deps (snd e)) (fun d =>
          match lookup (dp_target d) generated with
          | Some to => relationships_for from to d
          | None => ret []
          end)
    | None => ret []
    end).

(* parallel_generation.rs:49-92 *)
Definition generate_data : M (list triple) :=
  bind (lift counts) (fun ds =>
  let ds := ord ds in
  bind (each ds (fun e => shape_entities (fst e) (snd e))) (fun ts =>
  bind (relationships (List.map (fun e => (fst e, entities_of (fst e) (snd e))) ds)) (fun rs =>
  ret (ts ++ rs)%list))).
End Generator.

Section Whole.
Context {L : lib} {G : glib}.
(* lib.rs:75-88, 107-131: load_shex_schema and generate *)
Definition generate_shex (ord : forall A : Type, list (string * A) -> list (string * A)) (checks : bool) (rand : nat -> N) (cfg : config)
    (ds : list decl) : res (list triple) :=
  rmap fst (generate_data ord checks rand cfg (set_shapes (to_infos ord (convert_shapes ds))) 0%nat).
(* lib.rs:64-73: load_schema and generate *)
Definition generate_legacy (ord : forall A : Type, list (string * A) -> list (string * A)) (checks : bool) (rand : nat -> N) (cfg : config)
    (ds : list decl) : res (list triple) :=
  rmap fst (generate_data ord checks rand cfg (set_shapes (legacy_infos ord ds)) 0%nat).
End Whole.

(* config.rs:62-78 *)
Definition default_config (n : Z) : config :=
  {| c_count := n; c_distribution := Equal; c_strategy := Balanced; c_fill := 1; c_ignore := false; c_limit := 0; c_sel := SelAll;
     c_variance := 0; c_excluded := []; c_overrides := [] |}.
