(** Literals: conversion from and to RDF terms, datatype checks, string facets, ordering.

    rudof_rdf/src/rdf_core/term/literal/literal.rs lines 157-187 (ConcreteLiteral), 324-330
    (into_checked_literal), 372-410 (match_literal), 555-590 (constructors), 595-655 (accessors), 674-905
    (parse_...), 936-992 (PartialOrd, Ord), 1034-1098 (TryFrom<oxrdf::Literal>), 1102-1129 (From), 1169-1340
    (check_literal_datatype, validate, validate_with_result);
    numeric_literal.rs lines 59-77 (datatype), 86-110 (constructors), 152-156 (decimal_from_parts), 242-244
    (lexical_form), 616-636 (Display), 680-722 (From);
    term/triple.rs lines 250-297 (length, numeric_value, datatype, lang), 383-424 (conversions), 514-548 (ordering);
    shex_ast/src/node.rs lines 51-62 (as_checked_object);
    shex_ast/src/ast/cond_kind.rs lines 224-283 (node kind, datatype), 285-297 and 480-505 (length facets),
    299-478 (numeric facets);
    shex_ast/src/compact/shex_grammar.rs lines 1188-1233 (literals), 1238-1259 and 1818-1864 (bounds).

    Simplifications: a string is the list of its Unicode scalar values; comparing UTF-8 bytes and
    scalar values lexicographically is the same. A datatype IRI is a constructor of [dtype], every IRI
    naming none of the listed datatypes is [DOther]. Datatypes are resolved IRIs. Error texts are
    dropped. What libraries do (rust_decimal, oxsdatatypes, oxilangtag, parsing and printing of floats) is
    the parameter [lib]. *)
From Coq Require Import ZArith NArith List Bool.
Import ListNotations.
From Verif Require Import NumModel.
Local Open Scope Z_scope.

Definition str := list N.
Fixpoint str_eqb (a b : str) : bool :=
  match a, b with
  | [], [] => true
  | x :: a, y :: b => N.eqb x y && str_eqb a b
  | _, _ => false
  end.
Fixpoint str_cmp (a b : str) : comparison :=
  match a, b with
  | [], [] => Eq
  | [], _ :: _ => Lt
  | _ :: _, [] => Gt
  | x :: a, y :: b => match N.compare x y with Eq => str_cmp a b | c => c end
  end.
(** [str::starts_with]; the second argument is the prefix *)
Fixpoint starts_with (s p : str) : bool :=
  match p, s with
  | [], _ => true
  | y :: p, x :: s => N.eqb x y && starts_with s p
  | _ :: _, [] => false
  end.
(** [str::len]: bytes of the UTF-8 encoding *)
Definition utf8_len (c : N) : nat :=
  if (c <? 128)%N then 1%nat else if (c <? 2048)%N then 2%nat else if (c <? 65536)%N then 3%nat else 4%nat.
Fixpoint str_len (s : str) : nat := match s with [] => O | c :: s => (utf8_len c + str_len s)%nat end.

Inductive dtype :=
  DInt (k : ikind) | DXsdInt | DDecimal | DDouble | DFloat | DBoolean | DDateTime | DString | DLangString | DOther (iri : str).
Definition dtype_eqb (a b : dtype) : bool :=
  match a, b with
  | DInt k, DInt k' => ikind_eqb k k'
  | DXsdInt, DXsdInt | DDecimal, DDecimal | DDouble, DDouble | DFloat, DFloat | DBoolean, DBoolean | DDateTime, DDateTime
  | DString, DString | DLangString, DLangString => true
  | DOther i, DOther j => str_eqb i j
  | _, _ => false
  end.

(** what the libraries do; a date-time is the list of its components *)
Record lib := {
  parse_dec : str -> option dec;       (* Decimal::from_str *)
  parse_f64 : str -> option Z;         (* f64::from_str, as bits *)
  parse_f32 : str -> option Z;
  show_dec : dec -> str;               (* Display for Decimal *)
  show_f64 : Z -> str;                 (* Display for f64 *)
  show_f32 : Z -> str;
  ox_f64 : Z -> str;                   (* oxrdf: From<f64> for Literal *)
  ox_f32 : Z -> str;
  ox_i16 : dtype;                      (* oxrdf: the datatype of From<i16> for Literal *)
  f64_dec : Z -> option dec;           (* Decimal::from_f64 *)
  f32_dec : Z -> option dec;
  parse_date : str -> option (list Z); (* oxsdatatypes::DateTime::from_str *)
  show_date : list Z -> str;
  cmp_date : list Z -> list Z -> option comparison;
  eqb_date : list Z -> list Z -> bool;
  lang_new : str -> option str         (* Lang::new, lang.rs 25-41 *)
}.

Inductive lit :=
| LString (s : str) (lang : option str)
| LTyped (s : str) (d : dtype)
| LNum (n : num)
| LDate (t : list Z)
| LBool (b : bool)
| LWrong (s : str) (d : dtype).

(** ** printing integers *)
Definition digit (z : Z) : N := Z.to_N (48 + z).
Fixpoint show_fuel (fuel : nat) (z : Z) (acc : str) : str :=
  match fuel with
  | O => acc
  | Datatypes.S f => let acc := digit (z mod 10) :: acc in if z <? 10 then acc else show_fuel f (z / 10) acc
  end.
Definition show_nat (z : Z) : str := show_fuel (Datatypes.S (Z.to_nat (Z.log2 z))) z [].
Definition minus : N := 45%N.
Definition plus : N := 43%N.
Definition dot : N := 46%N.
Definition show_Z (z : Z) : str := if z <? 0 then minus :: show_nat (- z) else show_nat z.

(** ** parsing integers: [from_str] of the integer types of Rust *)
Definition digit_of (c : N) : option Z := if (48 <=? c)%N && (c <=? 57)%N then Some (Z.of_N c - 48) else None.
Fixpoint digits_from (acc : Z) (s : str) : option Z :=
  match s with
  | [] => Some acc
  | c :: s => match digit_of c with Some d => digits_from (10 * acc + d) s | None => None end
  end.
Definition digits (s : str) : option Z := match s with [] => None | _ => digits_from 0 s end.
Definition in_range (lo hi z : Z) : option Z := if (lo <=? z) && (z <=? hi) then Some z else None.
Definition parse_unsigned (hi : Z) (s : str) : option Z :=
  match (match s with c :: r => if N.eqb c plus then digits r else digits s | [] => None end) with
  | Some z => in_range 0 hi z
  | None => None
  end.
Definition parse_signed (lo hi : Z) (s : str) : option Z :=
  match (match s with
         | c :: r => if N.eqb c plus then digits r
                     else if N.eqb c minus then option_map Z.opp (digits r) else digits s
         | [] => None
         end) with
  | Some z => in_range lo hi z
  | None => None
  end.
Definition i128_min : Z := - 2 ^ 127.
Definition i128_max : Z := 2 ^ 127 - 1.
Definition u128_max : Z := 2 ^ 128 - 1.
(** lines 769-787 *)
Definition strip (c : N) (s : str) : option str := match s with x :: r => if N.eqb x c then Some r else None | [] => None end.
Definition parse_non_negative (s : str) : option Z :=
  let normalized := match strip plus s with Some r => r | None => s end in
  match strip minus normalized with
  | Some rest => match parse_unsigned u128_max rest with Some v => if v =? 0 then Some 0 else None | None => None end
  | None => parse_unsigned u128_max normalized
  end.
(** lines 698-905, 86-110 of numeric_literal.rs: parser and constructor together *)
Definition parse_int (k : ikind) (s : str) : option Z :=
  let check (p : Z -> bool) (o : option Z) := match o with Some z => if p z then Some z else None | None => None end in
  match k with
  | KInteger => parse_signed i128_min i128_max s
  | KNegativeInteger => check (fun z => z <? 0) (parse_signed i128_min i128_max s)
  | KNonPositiveInteger => check (fun z => z <=? 0) (parse_signed i128_min i128_max s)
  | KPositiveInteger => check (fun z => 0 <? z) (parse_unsigned u128_max s)
  | KNonNegativeInteger => parse_non_negative s
  | KByte | KShort | KLong => parse_signed (imin k) (imax k) s
  | KUnsignedByte | KUnsignedShort | KUnsignedInt | KUnsignedLong => parse_unsigned (imax k) s
  end.
(** the strings true, 1, false, 0; line 674 *)
Definition s_true : str := [116; 114; 117; 101]%N.
Definition s_false : str := [102; 97; 108; 115; 101]%N.
Definition parse_bool (s : str) : option bool :=
  if str_eqb s s_true || str_eqb s [49%N] then Some true
  else if str_eqb s s_false || str_eqb s [48%N] then Some false else None.
Definition show_bool (b : bool) : str := if b then s_true else s_false.
Definition lower (c : N) : N := if (65 <=? c)%N && (c <=? 90)%N then (c + 32)%N else c.
Definition eq_ignore_case (a b : str) : bool := str_eqb (map lower a) (map lower b).
(** +INF and +infinity *)
Definition s_plus_inf : str := [43; 73; 78; 70]%N.
Definition s_plus_infinity : str := [43; 105; 110; 102; 105; 110; 105; 116; 121]%N.
Definition bad_float (s : str) : bool := eq_ignore_case s s_plus_inf || eq_ignore_case s s_plus_infinity.

Section Lit.
  Context (L : lib).

  Definition parse_decimal (s : str) : option dec :=
    if existsb (fun c => N.eqb c 101 || N.eqb c 69) s then None else parse_dec L s.

  (** lines 1169-1340; datatypes are resolved, so the result is never an error *)
  Definition check_datatype (s : str) (d : dtype) : lit :=
    match d with
    | DInt k => match parse_int k s with Some z => LNum (NInt k z) | None => LWrong s d end
    | DDouble => if bad_float s then LWrong s d else match parse_f64 L s with Some b => LNum (NDouble b) | None => LWrong s d end
    | DFloat => if bad_float s then LWrong s d else match parse_f32 L s with Some b => LNum (NFloat b) | None => LWrong s d end
    | DDecimal => match parse_decimal s with Some x => LNum (NDecimal x) | None => LWrong s d end
    | DBoolean => match parse_bool s with Some b => LBool b | None => LWrong s d end
    | DDateTime => match parse_date L s with Some t => LDate t | None => LWrong s d end
    | DXsdInt | DString | DLangString | DOther _ => LTyped s d
    end.

  (** lines 324-330 *)
  Definition into_checked (l : lit) : lit := match l with LTyped s d => check_datatype s d | _ => l end.

  (** ** oxrdf literals and their conversion, lines 1034-1098; [None] is an error *)
  Inductive oxlit := OSimple (s : str) | OLang (s tag : str) | OTyped (s : str) (d : dtype).
  Definition of_term (t : oxlit) : option lit :=
    match t with
    | OSimple s => Some (LString s None)
    | OLang s tag => match lang_new L tag with Some l => Some (LString s (Some l)) | None => None end
    | OTyped s d =>
        match d with
        | DInt KInteger | DDecimal | DDouble | DFloat =>
            match check_datatype s d with LWrong _ _ => Some (LWrong s d) | _ => Some (LTyped s d) end
        | _ => Some (check_datatype s d)
        end
    end.

  (** lines 1102-1129 and numeric_literal.rs 680-722; oxrdf turns a typed literal of datatype
      xsd:string into a simple one *)
  Definition typed (s : str) (d : dtype) : oxlit := match d with DString => OSimple s | _ => OTyped s d end.
  Definition num_to_term (n : num) : oxlit :=
    match n with
    | NInt KShort z => OTyped (show_Z z) (ox_i16 L)
    | NInt k z => OTyped (show_Z z) (DInt k)
    | NDecimal d => OTyped (show_dec L d) DDecimal
    | NDouble b => OTyped (ox_f64 L b) DDouble
    | NFloat b => OTyped (ox_f32 L b) DFloat
    end.
  Definition to_term (l : lit) : oxlit :=
    match l with
    | LString s (Some tag) => OLang s tag
    | LString s None => OSimple s
    | LTyped s d | LWrong s d => typed s d
    | LNum n => num_to_term n
    | LBool b => OTyped (show_bool b) DBoolean
    | LDate t => OTyped (show_date L t) DDateTime
    end.

  (** lines 595-655 *)
  Definition num_lexical (n : num) : str :=
    match n with
    | NInt _ z => show_Z z
    | NDecimal d => show_dec L d
    | NDouble b => show_f64 L b
    | NFloat b => show_f32 L b
    end.
  Definition lexical_form (l : lit) : str :=
    match l with
    | LString s _ | LTyped s _ | LWrong s _ => s
    | LNum n => num_lexical n
    | LBool b => show_bool b
    | LDate t => show_date L t
    end.
  Definition num_datatype (n : num) : dtype :=
    match n with NInt k _ => DInt k | NDecimal _ => DDecimal | NDouble _ => DDouble | NFloat _ => DFloat end.
  Definition datatype (l : lit) : dtype :=
    match l with
    | LTyped _ d | LWrong _ d => d
    | LString _ None => DString
    | LString _ (Some _) => DLangString
    | LNum n => num_datatype n
    | LBool _ => DBoolean
    | LDate _ => DDateTime
    end.
  Definition numeric_value (l : lit) : option num := match l with LNum n => Some n | _ => None end.
  Definition lang (l : lit) : option str := match l with LString _ o => o | _ => None end.

  (** lines 372-410 *)
  Definition opt_str_eqb (a b : option str) : bool :=
    match a, b with Some x, Some y => str_eqb x y | None, None => true | _, _ => false end.
  Definition match_literal (a b : lit) : bool :=
    match a, b with
    | LString s l, LString s' l' => str_eqb s s' && opt_str_eqb l l'
    | LTyped s d, LTyped s' d' => str_eqb s s' && dtype_eqb d d'
    | LNum n, LNum n' => num_eqb (f64_dec L) (f32_dec L) n n'
    | LDate t, LDate t' => eqb_date L t t'
    | LBool b, LBool b' => Bool.eqb b b'
    | LWrong s d, LWrong s' d' => str_eqb s s' && dtype_eqb d d'
    | _, _ => false
    end.

  (** lines 936-985 *)
  Definition bool_cmp (a b : bool) : comparison :=
    match a, b with false, true => Lt | true, false => Gt | _, _ => Eq end.
  Definition lit_cmp (a b : lit) : option comparison :=
    match a, b with
    | LDate t, LDate t' => cmp_date L t t'
    | LString s _, LString s' _ => Some (str_cmp s s')
    | LTyped s d, LTyped s' d' =>
        match check_datatype s d, check_datatype s' d' with
        | LNum n, LNum n' => partial_cmp (f64_dec L) (f32_dec L) n n'
        | _, _ => if dtype_eqb d d' then Some (str_cmp s s') else None
        end
    | LNum n, LNum n' => partial_cmp (f64_dec L) (f32_dec L) n n'
    | LBool b, LBool b' => Some (bool_cmp b b')
    | _, _ => None
    end.

  (** ** objects, term/triple.rs; triple terms are not compared *)
  Inductive obj := OIri (s : str) | OBnode (s : str) | OLit (l : lit).
  Definition obj_length (o : obj) : nat :=
    match o with OIri s | OBnode s => str_len s | OLit l => str_len (lexical_form l) end.
  Definition obj_cmp (a b : obj) : option comparison :=
    match a, b with
    | OIri s, OIri s' => Some (str_cmp s s')
    | OBnode s, OBnode s' => Some (str_cmp s s')
    | OLit l, OLit l' => lit_cmp l l'
    | OIri _, _ => Some Lt
    | OBnode _, OIri _ => Some Gt
    | OBnode _, OLit _ => Some Lt
    | OLit _, _ => Some Gt
    end.
  (** [Ord::cmp], line 546 *)
  Definition obj_ord (a b : obj) : comparison := match obj_cmp a b with Some c => c | None => Lt end.

  (** node.rs 51-62 *)
  Definition checked (o : obj) : obj := match o with OLit l => OLit (into_checked l) | _ => o end.
  (** cond_kind.rs 224-237 *)
  Inductive node_kind := KIri | KBnode | KLiteral | KNonLiteral.
  Definition kind_ok (k : node_kind) (o : obj) : bool :=
    match k, o with
    | KIri, OIri _ | KBnode, OBnode _ | KLiteral, OLit _ | KNonLiteral, OBnode _ | KNonLiteral, OIri _ => true
    | _, _ => false
    end.
  (** cond_kind.rs 239-283 *)
  Definition datatype_ok (o : obj) (d : dtype) : bool :=
    match checked o with
    | OLit l => match into_checked l with LWrong _ _ => false | l => dtype_eqb (datatype l) d end
    | _ => false
    end.
  (** cond_kind.rs 285-297, 480-505 *)
  Definition length_ok (o : obj) (n : nat) : bool := Nat.eqb (obj_length o) n.
  Definition min_length_ok (o : obj) (n : nat) : bool := Nat.leb n (obj_length o).
  Definition max_length_ok (o : obj) (n : nat) : bool := Nat.leb (obj_length o) n.
  (** the number a numeric facet looks at; without one every facet fails *)
  Definition facet_number (o : obj) : option num := match checked o with OLit l => numeric_value l | _ => None end.
  Definition facet_ok (f : num -> bool) (o : obj) : bool := match facet_number o with Some n => f n | None => false end.

  (** ** the arcs into a literal, engine.rs 1618-1690 (neighs, get_rdf_node): the node is turned back into
      a term, and the triples whose object is this term are looked up *)
  Definition oxlit_eqb (a b : oxlit) : bool :=
    match a, b with
    | OSimple s, OSimple s' => str_eqb s s'
    | OLang s t, OLang s' t' => str_eqb s s' && str_eqb t t'
    | OTyped s d, OTyped s' d' => str_eqb s s' && dtype_eqb d d'
    | _, _ => false
    end.
  Definition incoming (g : list (str * str * oxlit)) (l : lit) : list (str * str) :=
    map fst (filter (fun t => oxlit_eqb (snd t) (to_term l)) g).

  (** ** SHACL value ranges, shacl/src/validator/constraints/core/value_range/min_inclusive.rs 34-42 and
      its siblings: a violation unless the comparison says otherwise *)
  Definition shacl_range (ok : comparison -> bool) (v bound : lit) : bool :=
    match lit_cmp v bound with Some c => ok c | None => false end.
  Definition is_ge (c : comparison) : bool := match c with Lt => false | _ => true end.
  Definition is_gt (c : comparison) : bool := match c with Gt => true | _ => false end.
  Definition is_le (c : comparison) : bool := match c with Gt => false | _ => true end.
  Definition is_lt (c : comparison) : bool := match c with Lt => true | _ => false end.
End Lit.

(** ** bounds of numeric facets in ShExC, shex_grammar.rs 1835-1850, numeric_literal.rs 152-156: the text
    before the point is read as an i64, the text after it as a u32; the two numbers are printed around a
    point and read as a decimal. [Decimal::from_str_exact] of such a text is its exact value, or an error
    when the digits do not fit 96 bits. *)
Definition decimal_from_parts (w f : Z) : option dec :=
  let s := ndigits f in
  let a := Z.abs w * pow10 s + f in
  if a <=? max_mant then Some {| mant := if w <? 0 then - a else a; scale := s |} else None.
Definition shexc_decimal (whole fraction : str) : option dec :=
  match parse_signed (- 2 ^ 63) (2 ^ 63 - 1) whole, parse_unsigned (2 ^ 32 - 1) fraction with
  | Some w, Some f => decimal_from_parts w f
  | _, _ => None
  end.
