(** Converting application profiles to ShEx: shapes_converter/src/tap_to_shex/tap2shex.rs lines 25-34 (convert), 38-53
    (tapshape_to_shape), 78-98 (tapshape_to_shape_expr), 102-115 (statement_to_triple_expr), 118-127
    (statement_to_value_expr), 130-165 (parse_shape_ref), 167-181 (get_min, get_max), 198-237 (parse_node_constraint),
    240-264 (parse_constraint), 267-278 (parse_value_set_value), 281-287 (parse_single_shape_ref);
    tap2shex_config.rs lines 85-125 (resolve_iri), 128-135 (prefix_local_name).

    Simplifications: the syntax tree is that of CompModel, so IRIs are numbered, and so are the conditions "has the
    datatype" and "is one of the values"; annotations are left out. The values of lists are strings (the reader makes
    no others). Errors carry no payload. *)
From Coq Require Import List Arith Bool ZArith.
Import ListNotations.
From Verif Require Import CompModel TapModel.
From Verif Require PrefixModel.

Section Convert.
  Variable is_iri : str -> bool.
  Variable prefixmap : list (str * str).
  Variable base_iri : option str.
  Variable value_shape_delimiter : nat.
  (** the numbers of IRIs and of conditions *)
  Variable number : str -> nat.
  Variable datatype_kind : str -> nat.
  Variable values_kind : list str -> nat.

  Definition opt {A} (o : option A) : res A := match o with Some a => Ok a | None => Err end.
  Definition relative (s : str) : res str := match base_iri with Some b => opt (PrefixModel.extend is_iri b s) | None => Err end.
  (** tap2shex_config.rs 85-125 *)
  Definition resolve_iri (s : str) : res str :=
    match PrefixModel.rsplit_once s with
    | Some (prefix, local) =>
        match PrefixModel.resolve_prefix_local is_iri prefixmap prefix local with
        | Some i => Ok i
        | None => if is_nil prefix then relative local else Err
        end
    | None => relative s
    end.

  (** a loop that stops at the first error *)
  Fixpoint map_res {A B} (f : A -> res B) (l : list A) : res (list B) :=
    match l with [] => Ok [] | a :: r => do b <- f a; do bs <- map_res f r; Ok (b :: bs) end.

  (** tap2shex.rs 240-278 *)
  Definition parse_constraint (c : constraint) : res part :=
    match c with
    | PickList vs => do is <- map_res resolve_iri vs; Ok (POne (values_kind is))
    | Pattern _ => Err
    end.
  Definition with_constraint (ps : list part) (c : option constraint) : res (list part) :=
    match c with Some c => do p <- parse_constraint c; Ok (ps ++ [p]) | None => Ok ps end.
  (** 198-237 *)
  Definition parse_node_constraint (st : statement) : res (option ase) :=
    match s_datatypes st with
    | [] => match s_constraint st with
            | Some c => do ps <- with_constraint [] (Some c); Ok (Some (ANode ps))
            | None => Ok None
            end
    | [d] =>
        do i <- resolve_iri d;
        do ps <- with_constraint [POne (datatype_kind i)] (s_constraint st);
        Ok None
    | ds =>
        do es <- map_res (fun d => do i <- resolve_iri d; do ps <- with_constraint [POne (datatype_kind i)] (s_constraint st); Ok (ANode ps)) ds;
        Ok (Some (AOr es))
    end.

  (** [str::split_whitespace] *)
  Fixpoint split_spaces (s : str) : list str :=
    match s with
    | [] => [[]]
    | c :: r => if is_space c then [] :: split_spaces r else match split_spaces r with [] => [[c]] | p :: ps => (c :: p) :: ps end
    end.
  Definition split_whitespace (s : str) : list str := filter (fun x => negb (is_nil x)) (split_spaces s).
  (** 130-165 *)
  Definition parse_shape_ref (st : statement) (se : option ase) : res (option ase) :=
    match s_value_shape st with
    | None => Ok se
    | Some s =>
        do shapes <- map_res (fun w => do i <- resolve_iri w; Ok (ARef (number i))) (filter (fun w => negb (str_eqb w [value_shape_delimiter])) (split_whitespace s));
        let and e := match se with Some x => AAnd [x; e] | None => e end in
        match shapes with
        | [] => Ok se
        | [e] => Ok (Some (and e))
        | _ => Ok (Some (and (AOr shapes)))
        end
    end.
  (** 167-181 *)
  Definition get_min (mandatory : option bool) : option Z :=
    match mandatory with Some true => Some 1%Z | Some false => Some 0%Z | None => Some 1%Z end.
  Definition get_max (repeatable : option bool) : option Z :=
    match repeatable with Some false => Some 1%Z | Some true => Some (-1)%Z | None => None end.
  (** 102-127 *)
  Definition statement_to_te (st : statement) : res ate :=
    do p <- resolve_iri (s_property st);
    do nc <- parse_node_constraint st;
    do v <- parse_shape_ref st nc;
    Ok (ATc None None (number p) v (get_min (s_mandatory st)) (get_max (s_repeatable st)) []).
  (** 78-98 *)
  Definition tapshape_to_se (s : tapshape) : res ase :=
    do tes <- map_res statement_to_te (t_statements s);
    do es <- map_res (fun e => resolve_iri (fst e)) (t_extends s);
    Ok (AShape None None (match tes with [] => None | _ => Some (AEach None tes None None []) end) (map number es)).
  (** 38-53 *)
  Definition tapshape_to_decl (s : tapshape) : res decl :=
    match t_id s with
    | Some id => do i <- resolve_iri id; do e <- tapshape_to_se s; Ok (mkDecl (number i) e false)
    | None => Err
    end.
  (** 25-34 *)
  Definition convert (tap : list tapshape) : res aschema := do ds <- map_res tapshape_to_decl tap; Ok (mkAschema None ds).
End Convert.
