(** Converting SHACL shapes to ShEx: shapes_converter/src/shacl_to_shex/shacl2shex.rs lines 32-47 (convert), 49-58
    (convert_shape), 60-67 (rdfnode2label), 69-107 (node_shape2shape_expr), 110-126 (convert_target_decls), 128-158
    (target2value_set_value), 160-255 (merge_triple_exprs, merge_expressions), 257-265 (property_shape2triple_constraint),
    267-290 (components2shape_expr), 292-305 (create_class_constraint), 307-350 (component2shape_expr), 352-357
    (shacl_path2predicate); shacl/src/ir/schema.rs lines 101-112 (iter); shex_ast/src/ast/triple_expr.rs lines 91-125,
    shape.rs lines 31-40, shape_expr.rs lines 84-86, schema.rs lines 164-172 (add_shape).

    Simplifications. The compiled SHACL schema is that of ShcModel: the components that test single values have numbers
    ([ShcModel.decode] tells which they are), the shapes come in the order in which the map of labels is walked, and
    [targets] are the targets of the shape with an index. The ShEx syntax tree is that of CompModel: labels, predicates and
    the conditions "has the datatype" and "is one of these IRIs" are numbered. Prefixes are left out. *)
From Coq Require Import List Bool NArith.
Import ListNotations.
From Verif Require Import CompModel PathModel ShaclModel.
From Verif Require ShcModel.

Section Convert.
  (** shacl2shex_config.rs lines 24-25 *)
  Variable add_target_class : bool.
  Variable label : term -> nat.
  Variable number : N -> nat.
  Variable datatype_kind : N -> nat.
  Variable values_kind : list N -> nat.
  Variable rdf_type : N.
  Variable sch : schema.
  Variable targets : nat -> list ShcModel.target.

  Fixpoint each {A B} (f : A -> res B) (l : list A) : res (list B) :=
    match l with [] => Ok [] | a :: l => bind (f a) (fun b => bind (each f l) (fun bs => Ok (b :: bs))) end.

  (** 60-67 *)
  Definition rdfnode2label (t : term) : res nat := match t with TLit _ => Err | _ => Ok (label t) end.
  (** triple_expr.rs 91-110, without cardinalities *)
  Definition triple_constraint (p : N) (v : option ase) : ate := ATc None None (number p) v None None [].
  Definition one_of (cs : list N) : ase := ANode [POne (values_kind cs)].
  (** 292-305 *)
  Definition create_class_constraint (c : term) : res ase :=
    match c with
    | TIri c => Ok (AShape None None (Some (triple_constraint rdf_type (Some (one_of [c])))) [])
    | _ => Panic
    end.
  (** 307-350; every other component is a todo *)
  Definition component2se (c : comp) : res ase :=
    match c with
    | CTest k =>
        match ShcModel.decode k with
        | ShcModel.XClass c => create_class_constraint c
        | ShcModel.XDatatype d => Ok (ANode [POne (datatype_kind d)])
        | _ => Panic
        end
    | COr _ => Ok (AShape None None None [])
    | _ => Panic
    end.
  (** 267-290: all components are converted, the first is taken *)
  Definition components2se (cs : list comp) : res (option ase) :=
    bind (each component2se cs) (fun ses => match ses with [] => Ok None | se :: _ => Ok (Some se) end).
  (** 352-357, 257-265 *)
  Definition path2predicate (p : path) : res N := match p with PPred p => Ok p | _ => Panic end.
  Definition property2tc (p : path) (s : shape) : res ate :=
    bind (path2predicate p) (fun p => bind (components2se (s_comps s)) (fun se => Ok (triple_constraint p se))).
  Definition property_of (i : nat) : res ate :=
    match get_shape sch i with
    | None => Panic
    | Some s => match s_path s with Some p => property2tc p s | None => Err end
    end.
  (** 128-158 *)
  Definition target2value (t : ShcModel.target) : res (option N) :=
    match t with
    | ShcModel.TgClass (TIri c) => Ok (Some c)
    | ShcModel.TgClass _ => Err
    | ShcModel.TgWrong _ => Panic
    | _ => Ok None
    end.
  Fixpoint somes {A} (l : list (option A)) : list A := match l with [] => [] | Some a :: l => a :: somes l | None :: l => somes l end.
  (** 110-126: there always is a constraint *)
  Definition target_constraint (ts : list ShcModel.target) : res ate :=
    bind (each target2value ts) (fun vs => Ok (triple_constraint rdf_type (Some (one_of (somes vs))))).
  Definition each_of (tes : list ate) : option ate := match tes with [] => None | _ => Some (AEach None tes None None []) end.
  (** 160-255, for a group and a triple constraint, whose bounds and label become those of the group *)
  Definition merge (te : option ate) (tc : ate) : ate :=
    match te, tc with
    | Some (AEach _ tes _ _ _), ATc id _ _ _ mn mx acts => AEach id (tes ++ [tc]) mn mx acts
    | Some te, _ => te
    | None, _ => tc
    end.
  (** 69-107 *)
  Definition node_shape2se (i : nat) (s : shape) : res ase :=
    bind (each property_of (s_props s)) (fun tes =>
    bind (if add_target_class then bind (target_constraint (targets i)) (fun tc => Ok (Some (merge (each_of tes) tc))) else Ok (each_of tes)) (fun te =>
    Ok (AShape None None te []))).
  (** 49-58 *)
  Definition convert_shape (i : nat) (s : shape) : res decl :=
    bind (rdfnode2label (s_id s)) (fun l => bind (node_shape2se i s) (fun e => Ok (mkDecl l e false))).
  Definition is_node_shape (e : nat * shape) : bool := match s_path (snd e) with None => true | Some _ => false end.
  (** 32-47 *)
  Definition convert : res aschema :=
    bind (each (fun e => convert_shape (fst e) (snd e)) (filter is_node_shape sch)) (fun ds => Ok (mkAschema None ds)).
End Convert.
