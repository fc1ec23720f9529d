(** Numeric literals.

    rudof_rdf/src/rdf_core/term/literal/numeric_literal.rs lines 18-35 (NumericLiteral), 206-229
    (to_decimal), 246-263 (less_than, less_than_or_eq), 269-340 (total_digits), 346-370
    (fraction_digits), 377-421 (Eq, PartialEq), 423-462 (Hash), 595-603 (PartialOrd);
    shex_ast/src/ast/cond_kind.rs lines 288-453: the comparisons of the numeric facets;
    rust_decimal 1.x, by its documentation: a decimal is a 96 bit integer and a scale of at most 28,
    compared by value, [normalize] strips trailing zeros.

    Simplifications: a float is the number of its bit pattern; the conversion of a float to a decimal
    ([Decimal::from_f64], [Decimal::from_f32]) is a parameter; decimals have no negative zero.
    [PartialOrd] of [Option]: [None] is less than [Some]. *)
From Coq Require Import ZArith List Bool.
Local Open Scope Z_scope.

(** mantissa and scale *)
Record dec := { mant : Z; scale : nat }.
Definition pow10 (n : nat) : Z := 10 ^ Z.of_nat n.
Definition max_mant : Z := 2 ^ 96 - 1.
Definition dec_cmp (a b : dec) : comparison := (mant a * pow10 (scale b) ?= mant b * pow10 (scale a)).
Definition dec_eqb (a b : dec) : bool := match dec_cmp a b with Eq => true | _ => false end.

Fixpoint normalize_parts (m : Z) (s : nat) : dec :=
  match s with
  | O => {| mant := m; scale := O |}
  | Datatypes.S s' => if m mod 10 =? 0 then normalize_parts (m / 10) s' else {| mant := m; scale := s |}
  end.
Definition normalize (d : dec) : dec := normalize_parts (mant d) (scale d).

(** the integer variants *)
Inductive ikind :=
  KInteger | KByte | KShort | KNonNegativeInteger | KUnsignedLong | KUnsignedInt | KUnsignedShort | KUnsignedByte
| KPositiveInteger | KNegativeInteger | KNonPositiveInteger | KLong.
Definition ikind_eqb (a b : ikind) : bool :=
  match a, b with
  | KInteger, KInteger | KByte, KByte | KShort, KShort | KNonNegativeInteger, KNonNegativeInteger | KUnsignedLong, KUnsignedLong
  | KUnsignedInt, KUnsignedInt | KUnsignedShort, KUnsignedShort | KUnsignedByte, KUnsignedByte | KPositiveInteger, KPositiveInteger
  | KNegativeInteger, KNegativeInteger | KNonPositiveInteger, KNonPositiveInteger | KLong, KLong => true
  | _, _ => false
  end.
Inductive num := NInt (k : ikind) (n : Z) | NDecimal (d : dec) | NDouble (bits : Z) | NFloat (bits : Z).

(** the machine type behind each variant, lines 18-35, and the checks of the constructors *)
Definition imin (k : ikind) : Z :=
  match k with
  | KInteger | KNegativeInteger | KNonPositiveInteger => - 2 ^ 127
  | KByte => - 2 ^ 7 | KShort => - 2 ^ 15 | KLong => - 2 ^ 63
  | KNonNegativeInteger | KUnsignedLong | KUnsignedInt | KUnsignedShort | KUnsignedByte => 0
  | KPositiveInteger => 1
  end.
Definition imax (k : ikind) : Z :=
  match k with
  | KInteger => 2 ^ 127 - 1 | KNegativeInteger => -1 | KNonPositiveInteger => 0
  | KByte => 2 ^ 7 - 1 | KShort => 2 ^ 15 - 1 | KLong => 2 ^ 63 - 1
  | KNonNegativeInteger | KPositiveInteger => 2 ^ 128 - 1
  | KUnsignedLong => 2 ^ 64 - 1 | KUnsignedInt => 2 ^ 32 - 1 | KUnsignedShort => 2 ^ 16 - 1 | KUnsignedByte => 2 ^ 8 - 1
  end.

(** [Decimal::from_i128] and its siblings *)
Definition dec_of_int (n : Z) : option dec := if Z.abs n <=? max_mant then Some {| mant := n; scale := O |} else None.

(** the number of characters of [n.to_string()], [n >= 0] *)
Fixpoint ndigits_fuel (fuel : nat) (n : Z) : nat :=
  match fuel with
  | O => 1%nat
  | Datatypes.S f => if n <? 10 then 1%nat else Datatypes.S (ndigits_fuel f (n / 10))
  end.
Definition ndigits (n : Z) : nat := ndigits_fuel (Z.to_nat (Z.log2 n)) n.

Definition opt_lt (a b : option dec) : bool :=
  match a, b with
  | None, Some _ => true
  | Some x, Some y => match dec_cmp x y with Lt => true | _ => false end
  | _, None => false
  end.
Definition opt_le (a b : option dec) : bool :=
  match a, b with
  | None, _ => true
  | Some x, Some y => match dec_cmp x y with Gt => false | _ => true end
  | Some _, None => false
  end.

Inductive hash_input :=
  HDec (d : dec) | HBits64 (b : Z) | HBits32 (b : Z) | HVariant (k : ikind) (n : Z) | HVariantDec (d : dec).

Section Num.
  Variable from_f64 from_f32 : Z -> option dec.

  Definition to_decimal (n : num) : option dec :=
    match n with
    | NInt _ z => dec_of_int z
    | NDecimal d => Some d
    | NDouble b => from_f64 b
    | NFloat b => from_f32 b
    end.

  Definition less_than (a b : num) : bool :=
    match a, b with
    | NInt KInteger x, NInt KInteger y => x <? y
    | _, _ => opt_lt (to_decimal a) (to_decimal b)
    end.
  Definition less_than_or_eq (a b : num) : bool :=
    match a, b with
    | NInt KInteger x, NInt KInteger y => x <=? y
    | _, _ => opt_le (to_decimal a) (to_decimal b)
    end.

  (** cond_kind.rs: [value] is the number of the node, [bound] the facet *)
  Definition min_inclusive (value bound : num) : bool := negb (less_than value bound).
  Definition min_exclusive (value bound : num) : bool := negb (less_than_or_eq value bound).
  Definition max_exclusive (value bound : num) : bool := less_than value bound.
  Definition max_inclusive (value bound : num) : bool := less_than_or_eq value bound.

  Definition num_eqb (a b : num) : bool :=
    match to_decimal a, to_decimal b with
    | Some x, Some y => dec_eqb x y
    | _, _ =>
        match a, b with
        | NDouble x, NDouble y => x =? y
        | NFloat x, NFloat y => x =? y
        | NInt k x, NInt k' y => ikind_eqb k k' && (x =? y)
        | NDecimal x, NDecimal y => dec_eqb x y
        | _, _ => false
        end
    end.

  Definition num_hash (a : num) : hash_input :=
    match to_decimal a with
    | Some d => HDec (normalize d)
    | None =>
        match a with
        | NDouble b => HBits64 b
        | NFloat b => HBits32 b
        | NInt k n => HVariant k n
        | NDecimal d => HVariantDec (normalize d)
        end
    end.

  Definition partial_cmp (a b : num) : option comparison :=
    match to_decimal a, to_decimal b with
    | Some x, Some y => Some (dec_cmp x y)
    | _, _ => None
    end.
End Num.

(** lines 269-340: the smallest values are special-cased because their absolute value overflows *)
Definition total_digits (n : num) : option nat :=
  match n with
  | NInt k z =>
      Some (match k with
            | KInteger | KNegativeInteger | KNonPositiveInteger => if z =? - 2 ^ 127 then 39%nat else ndigits (Z.abs z)
            | KLong => if z =? - 2 ^ 63 then 19%nat else ndigits (Z.abs z)
            | KByte => if z =? - 2 ^ 7 then 3%nat else ndigits (Z.abs z)
            | KShort => if z =? - 2 ^ 15 then 5%nat else ndigits (Z.abs z)
            | _ => ndigits z
            end)
  | NDecimal d =>
      (* digits of the mantissa, padded so that one digit precedes the point *)
      let e := normalize d in Some (Nat.max (ndigits (Z.abs (mant e))) (Datatypes.S (scale e)))
  | NDouble _ | NFloat _ => None
  end.
(** lines 346-370: the digits after the point *)
Definition fraction_digits (n : num) : option nat :=
  match n with
  | NInt _ _ => Some 0%nat
  | NDecimal d => Some (scale (normalize d))
  | NDouble _ | NFloat _ => None
  end.

(** cond_kind.rs, totalDigits and fractionDigits *)
Definition total_digits_ok (n : num) (t : nat) : bool := match total_digits n with Some k => Nat.leb k t | None => false end.
Definition fraction_digits_ok (n : num) (f : nat) : bool := match fraction_digits n with Some k => Nat.leb k f | None => false end.
