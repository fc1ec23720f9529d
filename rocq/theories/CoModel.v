(* Comparing two shapes of ShEx schemas.

   shapes_comparator/src/coshamo_converter.rs:41-84 (populate_from_shex), 86-88 (get_iri), 90-133
   (triple_expr2coshamo), 135-149 (triple_constraint2coshamo), 151-182 (triple_expr_as_constraint2coshamo), 184-234
   (value_expr2value_constraint), 236-270 (shape2coshamo); coshamo.rs:28-46 (add_constraint, resolve), 48-66 (compare),
   79-99 (ValueDescription), 111-135 (ValueConstraint); shaco.rs:24-48; shex_ast/src/ast/schema.rs:243-297 (find_shape,
   find_shape_by_iri_ref); prefixmap/src/prefix_map.rs:521-526 (resolve_iriref), 561-577 (resolve_prefix_local);
   rudof_iri/src/iri/iris.rs:82-96 (extend), 316-325 (from_str); rudof_lib/src/api/comparison/implementations/
   show_schema_comparison.rs:65, 115-143.

   Simplifications.
   - The syntax tree is that of SjModel. A map is the list of its entries; [insert] replaces the entry of the key.
     The walks of [compare] are in the order of the lists.
   - Descriptions have no percentage, since none is ever set.  All errors are one value.
   - The state of the converter besides the prefix map is written to and never read; what is written to it is left out,
     and so are only the errors that arise before. *)
From Coq Require Import List String Ascii Bool.
Import ListNotations.
From Verif Require Import SjModel.
Open Scope string_scope.

Section Comparator.
Context {L : lib}.
Definition prefixes := list (string * string).

(* ------------------------------------------------------------------ *)
(* Names                                                               *)

Fixpoint lookup {A : Type} (k : string) (l : list (string * A)) : option A :=
  match l with [] => None | (k', v) :: l => if String.eqb k k' then Some v else lookup k l end.

Fixpoint put {A : Type} (k : string) (v : A) (l : list (string * A)) : list (string * A) :=
  match l with [] => [(k, v)] | (k', v') :: l => if String.eqb k k' then (k, v) :: l else (k', v') :: put k v l end.

(* str::ends_with for one character *)
Fixpoint ends_with (c : ascii) (s : string) : bool :=
  match s with
  | EmptyString => false
  | String d EmptyString => Ascii.eqb c d
  | String _ s => ends_with c s
  end.

(* iris.rs:82-96 *)
Definition extend (ns local : string) : res string :=
  let i := if ends_with "/" ns || ends_with "#" ns then ns ++ local else ns ++ "/" ++ local in
  if iri_ok i then Ok i else Err.

(* prefix_map.rs:561-577 *)
Definition resolve_prefix_local (pm : prefixes) (p l : string) : res string :=
  match lookup p pm with
  | Some ns => if String.eqb l "" then Ok ns else extend ns l
  | None => Err
  end.

(* prefix_map.rs:521-526 *)
Definition resolve_iriref (pm : prefixes) (i : iriref) : res string :=
  match i with Prefixed p l => resolve_prefix_local pm p l | Iri s => Ok s end.

(* coshamo.rs:33-46 *)
Definition resolve (pm : option prefixes) (i : iriref) : res string :=
  match pm with Some pm => resolve_iriref pm i | None => Err end.

(* ------------------------------------------------------------------ *)
(* Finding a shape                                                      *)

(* schema.rs:283-292 *)
Fixpoint find_decl (pm : prefixes) (expected : string) (ds : list decl) : res (option sexpr) :=
  match ds with
  | [] => Ok None
  | d :: ds =>
      match d_id d with
      | LIri i => rbind (resolve_iriref pm i) (fun s => if String.eqb s expected then Ok (Some (d_expr d)) else find_decl pm expected ds)
      | _ => find_decl pm expected ds
      end
  end.

(* schema.rs:273-297 *)
Definition find_shape_by_iri_ref (sch : schema) (i : iriref) : res (option sexpr) :=
  let pm := match s_prefixes sch with Some pm => pm | None => [] end in
  match s_shapes sch with
  | Some ds => rbind (resolve_iriref pm i) (fun expected => find_decl pm expected ds)
  | None => Ok None
  end.

(* schema.rs:243-263 *)
Definition find_shape (sch : schema) (l : string) : res (option sexpr) :=
  if String.eqb l "START" then Panic
  else if String.prefix "_:" l then Panic
  else if iri_ok l then find_shape_by_iri_ref sch (Iri l) else Err.

(* ------------------------------------------------------------------ *)
(* Describing a shape                                                   *)

(* coshamo.rs:110-118 *)
Inductive vconstraint : Type :=
| VcDatatype (i : string)
| VcKind (s : string)
| VcRef (s : string)
| VcAny.

(* coshamo.rs:69-77 *)
Record vdescr : Type := { vd_iri : iriref; vd_constraint : vconstraint }.
Definition coshamo := list (string * vdescr).

(* node_kind.rs:14-23 *)
Definition kind_text (k : nodekind) : string :=
  match k with NIri => "IRI" | NBNode => "BNode" | NNonLiteral => "NonLiteral" | NLiteral => "Literal" end.

(* coshamo_converter.rs:184-234 *)
Definition value_constraint (ignore : bool) (pm : option prefixes) (ve : option sexpr) : res vconstraint :=
  if ignore then Ok VcAny
  else match ve with
       | Some (SNode nc) =>
           match n_datatype nc with
           | Some d => rmap VcDatatype (resolve pm d)
           | None => match n_kind nc with Some k => Ok (VcKind (kind_text k)) | None => Err end
           end
       | Some (SRef l) => Ok (VcRef (show_label l))
       | Some _ => Err
       | None => Ok VcAny
       end.

(* coshamo_converter.rs:151-182 *)
Definition as_constraint (ignore : bool) (pm : option prefixes) (te : texpr) : res (iriref * vdescr) :=
  match te with
  | TTriple _ _ _ p ve _ _ _ _ => rmap (fun c => (p, {| vd_iri := p; vd_constraint := c |})) (value_constraint ignore pm ve)
  | _ => Err
  end.

(* coshamo_converter.rs:100-104 *)
Fixpoint add_all (ignore : bool) (pm : option prefixes) (m : coshamo) (l : list texpr) : res coshamo :=
  match l with
  | [] => Ok m
  | te :: l =>
      rbind (as_constraint ignore pm te) (fun c => rbind (resolve pm (fst c)) (fun i => add_all ignore pm (put i (snd c) m) l))
  end.

(* coshamo_converter.rs:90-133: the description of a lone constraint goes to the state of the converter *)
Definition triple_expr2coshamo (ignore : bool) (pm : option prefixes) (te : texpr) (m : coshamo) : res coshamo :=
  match te with
  | TEach _ l _ _ _ _ => add_all ignore pm m l
  | TOne _ _ _ _ _ _ => Err
  | TTriple _ _ _ p ve _ _ _ _ =>
      rbind (resolve pm p) (fun i => rbind (value_constraint ignore pm ve) (fun c => rbind (resolve pm p) (fun i => Ok m)))
  | TRef _ => Panic
  end.

(* coshamo_converter.rs:236-270 *)
Definition shape2coshamo (ignore : bool) (pm : option prefixes) (e : sexpr) : res coshamo :=
  match e with
  | SShape _ _ (Some te) _ _ _ => triple_expr2coshamo ignore pm te []
  | SShape _ _ None _ _ _ => Ok []
  | _ => Err
  end.

(* coshamo_converter.rs:41-84 *)
Definition populate (ignore : bool) (sch : schema) (l : option string) : res coshamo :=
  match l with
  | Some l => rbind (find_shape sch l) (fun o => match o with Some e => shape2coshamo ignore (s_prefixes sch) e | None => Err end)
  | None => Err
  end.

(* ------------------------------------------------------------------ *)
(* Comparing descriptions                                               *)

(* shaco.rs:8-12 *)
Record shaco : Type := {
  equal_properties : list (string * (vdescr * vdescr));
  properties1 : list (string * vdescr);
  properties2 : list (string * vdescr)
}.

(* coshamo.rs:48-66 *)
Fixpoint compare1 (m1 m2 : coshamo) (r : shaco) : shaco :=
  match m1 with
  | [] => r
  | (p, d1) :: m1 =>
      compare1 m1 m2
        match lookup p m2 with
        | Some d2 => {| equal_properties := put p (d1, d2) (equal_properties r); properties1 := properties1 r; properties2 := properties2 r |}
        | None => {| equal_properties := equal_properties r; properties1 := put p d1 (properties1 r); properties2 := properties2 r |}
        end
  end.
Fixpoint compare2 (m1 m2 : coshamo) (r : shaco) : shaco :=
  match m2 with
  | [] => r
  | (p, d2) :: m2 =>
      compare2 m1 m2
        match lookup p m1 with
        | Some _ => r
        | None => {| equal_properties := equal_properties r; properties1 := properties1 r; properties2 := put p d2 (properties2 r) |}
        end
  end.
Definition compare (m1 m2 : coshamo) : shaco :=
  compare2 m1 m2 (compare1 m1 m2 {| equal_properties := []; properties1 := []; properties2 := [] |}).

(* show_schema_comparison.rs:37-65 *)
Definition compare_shapes (ignore : bool) (s1 s2 : schema) (l1 l2 : option string) : res shaco :=
  rbind (populate ignore s1 l1) (fun m1 => rbind (populate ignore s2 l2) (fun m2 => Ok (compare m1 m2))).
End Comparator.
