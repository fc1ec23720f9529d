(** Node constraints: their compilation to a condition and its evaluation.

    shex_ast/src/ir/ast2ir.rs lines 415-432 (cnv_node_constraint), 888-977 (node_constraint2match_cond to
    options2match_cond), shex_ast/src/ast/cond_kind.rs lines 52-127 (eval), 176-210 (check_pattern),
    212-237 (check_node_node_kind) and the checks of LitModel, rbe/src/match_cond.rs lines 78-89, 193-198
    (matches).

    Simplifications: a condition without references has no pending pairs, so its result is a boolean.
    Semantic actions are left out. The regex crate is a parameter that gives [None] for a pattern it does not
    accept. Datatype IRIs are turned into the datatypes of LitModel by a parameter. *)
From Coq Require Import ZArith NArith List Bool.
Import ListNotations.
From Verif Require Import NumModel LitModel VsModel.

Inductive facet :=
| FLength (n : nat) | FMinLength (n : nat) | FMaxLength (n : nat) | FPattern (regex flags : str)
| FMinInclusive (b : num) | FMinExclusive (b : num) | FMaxInclusive (b : num) | FMaxExclusive (b : num)
| FTotalDigits (n : nat) | FFractionDigits (n : nat).

Record node_constraint := mkNC { nc_kind : option node_kind; nc_datatype : option iri_ref; nc_facets : option (list facet); nc_values : option (list (value iri_ref)) }.

Inductive cond := CAny | CKind (k : node_kind) | CDatatype (i : str) | CFacet (f : facet) | CValues (vs : list (value str)) | CAnd (cs : list cond).

Section Compile.
  Variable resolve : str -> str -> option str.

  (** [Option::transpose] of a conversion *)
  Definition optional {A B} (f : A -> outcome B) (o : option A) : outcome (option B) :=
    match o with None => Done None | Some a => bind (f a) (fun b => Done (Some b)) end.
  (** 967-977 *)
  Definition options2cond (os : list (option cond)) : cond :=
    match flat_map (fun o => match o with Some c => [c] | None => [] end) os with
    | [] => CAny
    | [c] => c
    | cs => CAnd cs
    end.
  (** 415-432, 888-905 *)
  Definition cnv_node_constraint (nc : node_constraint) : outcome cond :=
    bind (optional (create_value_set resolve) (nc_values nc)) (fun vs =>
    bind (optional (cnv_iri_ref resolve) (nc_datatype nc)) (fun d =>
    Done (options2cond
      [option_map CKind (nc_kind nc); option_map CDatatype d; option_map (fun fs => CAnd (map CFacet fs)) (nc_facets nc); option_map CValues vs]))).
End Compile.

Section Eval.
  Context (L : lib).
  Variable dtype_of : str -> dtype.
  (** [Regex::new] and [is_match] of a pattern with its flags in front *)
  Variable regex_match : str -> str -> option bool.

  (** check_pattern: (?flags) in front of the pattern *)
  Definition with_flags (regex flags : str) : str := match flags with [] => regex | _ => [40; 63]%N ++ flags ++ [41%N] ++ regex end.
  Definition obj_text (o : obj) : str := match o with OIri s | OBnode s => s | OLit l => lexical_form L l end.
  Definition pattern_ok (regex flags : str) (o : obj) : bool :=
    match regex_match (with_flags regex flags) (obj_text o) with Some b => b | None => false end.

  Definition facet_check (f : facet) (o : obj) : bool :=
    match f with
    | FLength n => length_ok L o n
    | FMinLength n => min_length_ok L o n
    | FMaxLength n => max_length_ok L o n
    | FPattern r fl => pattern_ok r fl o
    | FMinInclusive b => facet_ok L (fun n => min_inclusive (f64_dec L) (f32_dec L) n b) o
    | FMinExclusive b => facet_ok L (fun n => min_exclusive (f64_dec L) (f32_dec L) n b) o
    | FMaxInclusive b => facet_ok L (fun n => max_inclusive (f64_dec L) (f32_dec L) n b) o
    | FMaxExclusive b => facet_ok L (fun n => max_exclusive (f64_dec L) (f32_dec L) n b) o
    | FTotalDigits n => facet_ok L (fun x => total_digits_ok x n) o
    | FFractionDigits n => facet_ok L (fun x => fraction_digits_ok x n) o
    end.
  (** cond_kind.rs 60-127 and match_cond.rs 78-89 *)
  Fixpoint matches (c : cond) (o : obj) : bool :=
    match c with
    | CAny => true
    | CKind k => kind_ok k o
    | CDatatype i => datatype_ok L o (dtype_of i)
    | CFacet f => facet_check f o
    | CValues vs => check_value L vs o
    | CAnd cs => forallb (fun c => matches c o) cs
    end.
End Eval.
