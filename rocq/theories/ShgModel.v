(* Generating data from SHACL shapes.

   rudof_generate/src/converters/shacl_to_unified.rs:55-252, lib.rs:84-95 (load_shacl_schema); the generator is that of GenModel.
   rudof_rdf/src/rdf_core/shacl_path.rs:106-151 (Display).

   Simplifications.
   - The schema is the list of the entries of its map, in the order in which they are walked. The names of shapes are IRIs or
     blank nodes.
   - Literals are a lexical form and a datatype. The flags of patterns are left out, as nothing reads them.
   - The components that are not converted (sh:class, sh:or, sh:and, sh:not, sh:xone, sh:closed, sh:equals, sh:disjoint,
     sh:lessThan, sh:lessThanOrEquals, sh:uniqueLang, sh:languageIn, sh:qualifiedValueShape, sh:deactivated, SPARQL) are one kind,
     told apart by a text.
   - The target class of a shape is left out: nothing reads it. *)
From Coq Require Import List String Bool ZArith QArith.
Import ListNotations.
From Verif Require Import SjModel CoModel GenModel CmModel.
Open Scope string_scope.

Inductive name : Type := NmIri (s : string) | NmBlank (s : string).
(* shacl_path.rs:17-53 *)
Inductive path : Type :=
| PPred (s : string)
| PAlt (ps : list path)
| PSeq (ps : list path)
| PInv (p : path)
| PStar (p : path)
| PPlus (p : path)
| POpt (p : path).
Record lit : Type := { l_lex : string; l_dt : string }.
Inductive value : Type := VIri (s : string) | VLit (l : lit).
(* component.rs:13-60 *)
Inductive component : Type :=
| KDatatype (d : string)
| KNodeKind (k : ukind)
| KMinCount (z : Z)
| KMaxCount (z : Z)
| KMinEx (l : lit)
| KMaxEx (l : lit)
| KMinIn (l : lit)
| KMaxIn (l : lit)
| KMinLength (z : Z)
| KMaxLength (z : Z)
| KPattern (s : string)
| KNode (n : name)
| KHasValue (v : value)
| KIn (vs : list value)
| KOther (what : string).
Inductive target : Type := TgNode (s : string) | TgClass (s : string) | TgImplicit (s : string) | TgSubjectsOf (p : string) | TgObjectsOf (p : string).
Record node_shape : Type := { ns_id : name; ns_targets : list target; ns_props : list name; ns_comps : list component }.
Record prop_shape : Type := { ps_id : name; ps_path : path; ps_comps : list component }.
Inductive shape : Type := SNodeShape (s : node_shape) | SPropShape (s : prop_shape).
Definition schema := list (name * shape).

(* Display *)
Definition show_name (n : name) : string := match n with NmIri s => s | NmBlank s => "_:" ++ s end.
Fixpoint show_path (p : path) : string :=
  match p with
  | PPred s => s
  | PAlt ps => "(" ++ String.concat " | " (List.map show_path ps) ++ ")"
  | PSeq ps => "(" ++ String.concat " / " (List.map show_path ps) ++ ")"
  | PInv p => "^(" ++ show_path p ++ ")"
  | PStar p => "(" ++ show_path p ++ ")*"
  | PPlus p => "(" ++ show_path p ++ ")+"
  | POpt p => "(" ++ show_path p ++ ")?"
  end.
Definition name_eqb (a b : name) : bool :=
  match a, b with NmIri s, NmIri t | NmBlank s, NmBlank t => String.eqb s t | _, _ => false end.
Fixpoint get_shape (n : name) (sch : schema) : option shape :=
  match sch with [] => None | (n', s) :: sch => if name_eqb n n' then Some s else get_shape n sch end.

(* shacl_to_unified.rs:240-252 *)
Definition convert_literal (l : lit) : uvalue := ULit (l_lex l) (Some (l_dt l)).
Definition convert_value (v : value) : uvalue := match v with VIri s => UIri s | VLit l => convert_literal l end.
(* shacl_to_unified.rs:166-238: what is pushed *)
Definition convert_component (c : component) : option ucons :=
  match c with
  | KDatatype d => Some (CDatatype d)
  | KNodeKind k => Some (CKind k)
  | KPattern s => Some (CPattern s)
  | KMinLength z => Some (CMinLength (as_u32 z))
  | KMaxLength z => Some (CMaxLength (as_u32 z))
  | KMinIn l => Some (CMinIn (convert_literal l))
  | KMaxIn l => Some (CMaxIn (convert_literal l))
  | KMinEx l => Some (CMinEx (convert_literal l))
  | KMaxEx l => Some (CMaxEx (convert_literal l))
  | KHasValue v => Some (CHasValue (convert_value v))
  | KIn vs => Some (CIn (List.map convert_value vs))
  | KNode n => Some (CShapeRef (show_name n))
  | KMinCount _ | KMaxCount _ | KOther _ => None
  end.
Fixpoint somes {A} (l : list (option A)) : list A := match l with [] => [] | Some a :: l => a :: somes l | None :: l => somes l end.
(* shacl_to_unified.rs:147-164 *)
Definition extract_cardinality (cs : list component) : option Z * option Z :=
  fold_left (fun m c =>
    match c with
    | KMinCount z => if (0 <=? z)%Z then (Some (as_u32 z), snd m) else m
    | KMaxCount z => if (0 <=? z)%Z then (fst m, Some (as_u32 z)) else m
    | _ => m
    end) cs (None, None).
(* shacl_to_unified.rs:106-145 *)
Definition convert_property (ps : prop_shape) : uprop :=
  let cs := somes (List.map convert_component (ps_comps ps)) in
  {| u_iri := show_path (ps_path ps); u_cons := match cs with [] => [CDatatype (xsd "string")] | _ => cs end;
     u_min := fst (extract_cardinality (ps_comps ps)); u_max := snd (extract_cardinality (ps_comps ps)) |}.
Definition property_counts (ps : prop_shape) : Z * Z :=
  let one {A} (o : option A) := match o with Some _ => 1%Z | None => 0%Z end in
  (Z.of_nat (List.length (ps_comps ps)),
   one (fst (extract_cardinality (ps_comps ps))) + one (snd (extract_cardinality (ps_comps ps))) +
     Z.of_nat (List.length (somes (List.map convert_component (ps_comps ps)))))%Z.
(* shacl_to_unified.rs:70-104 *)
Definition property_shapes (sch : schema) (s : node_shape) : list prop_shape :=
  somes (List.map (fun n => match get_shape n sch with Some (SPropShape ps) => Some ps | _ => None end) (ns_props s)).
Definition convert_shape (sch : schema) (s : node_shape) : ushape :=
  {| u_id := show_name (ns_id s); u_props := List.map convert_property (property_shapes sch s); u_closed := false |}.
(* shacl_to_unified.rs:55-68 *)
Definition node_shapes (sch : schema) : list node_shape := somes (List.map (fun e => match snd e with SNodeShape s => Some s | _ => None end) sch).
Definition convert_schema (sch : schema) : shapes :=
  fold_left (fun m s => put (u_id (convert_shape sch s)) (convert_shape sch s) m) (node_shapes sch) [].
Definition shacl_translation (sch : schema) : translation :=
  let r := sum (List.map (fun s => sum (List.map property_counts (property_shapes sch s))) (node_shapes sch)) in
  {| t_original := fst r; t_represented := snd r |}.

(* lib.rs:84-95, 110-131 *)
Definition generate_shacl {L : lib} {G : glib} (ord : forall A : Type, list (string * A) -> list (string * A)) (checks : bool) (rand : nat -> N) (cfg : config)
    (sch : schema) : res (list triple) :=
  rmap fst (generate_data ord checks rand cfg (set_shapes (to_infos ord (convert_schema sch))) 0%nat).
