(** Values of numeric literals and their order. *)
From Coq Require Import ZArith QArith.
From Verif Require Import NumModel.
Local Open Scope Z_scope.

Inductive xnum := XNaN | XInf (negative : bool) | XFin (q : Q).
Definition xlt (a b : xnum) : Prop :=
  match a, b with
  | XFin p, XFin q => (p < q)%Q
  | XInf n, XInf m => n = true /\ m = false
  | XInf n, XFin _ => n = true
  | XFin _, XInf m => m = false
  | XNaN, _ | _, XNaN => False
  end.
Definition xeq (a b : xnum) : Prop :=
  match a, b with
  | XFin p, XFin q => (p == q)%Q
  | XInf n, XInf m => n = m
  | _, _ => False
  end.
Definition xle (a b : xnum) : Prop := xlt a b \/ xeq a b.

Definition dec_value (d : dec) : Q := Qmake (mant d) (Z.to_pos (10 ^ Z.of_nat (scale d))).

(** IEEE 754 interchange formats: exponent and mantissa widths *)
Definition pow2 (e : Z) : Q := if e <? 0 then Qmake 1 (Z.to_pos (2 ^ (- e))) else inject_Z (2 ^ e).
Definition ieee (ebits mbits : Z) (b : Z) : xnum :=
  let m := b mod 2 ^ mbits in
  let e := (b / 2 ^ mbits) mod 2 ^ ebits in
  let neg := Z.odd (b / 2 ^ (mbits + ebits)) in
  let bias := 2 ^ (ebits - 1) - 1 in
  let sign := inject_Z (if neg then -1 else 1) in
  if e =? 2 ^ ebits - 1 then (if m =? 0 then XInf neg else XNaN)
  else if e =? 0 then XFin (sign * inject_Z m * pow2 (1 - bias - mbits))
  else XFin (sign * inject_Z (2 ^ mbits + m) * pow2 (e - bias - mbits)).

Definition value (n : num) : xnum :=
  match n with
  | NInt _ z => XFin (inject_Z z)
  | NDecimal d => XFin (dec_value d)
  | NDouble b => ieee 11 52 b
  | NFloat b => ieee 8 23 b
  end.

Definition finite (x : xnum) : Prop := match x with XFin _ => True | _ => False end.

(** within the range of its type *)
Definition well_formed (n : num) : Prop :=
  match n with
  | NInt k z => imin k <= z <= imax k
  | NDecimal d => Z.abs (mant d) <= max_mant /\ (scale d <= 28)%nat
  | NDouble b => 0 <= b < 2 ^ 64
  | NFloat b => 0 <= b < 2 ^ 32
  end.

(** the contract of the conversion from floats that is used: no decimal for infinities and NaN *)
Definition no_decimal_unless_finite (from_f64 from_f32 : Z -> option dec) : Prop :=
  (forall b, ~ finite (value (NDouble b)) -> from_f64 b = None) /\
  (forall b, ~ finite (value (NFloat b)) -> from_f32 b = None).

(** a literal whose decimal is its value *)
Definition represented (from_f64 from_f32 : Z -> option dec) (n : num) : Prop :=
  exists d, to_decimal from_f64 from_f32 n = Some d /\ xeq (XFin (dec_value d)) (value n).

(** XML Schema 1.1 part 2, 4.3.11 and 4.3.12 *)
Definition has_total_digits (q : Q) (t : nat) : Prop :=
  exists (i : Z) (n : nat), (n <= t)%nat /\ Z.abs i < 10 ^ Z.of_nat t /\ (q == Qmake i (Z.to_pos (10 ^ Z.of_nat n)))%Q.
Definition has_fraction_digits (q : Q) (f : nat) : Prop :=
  exists (i : Z) (n : nat), (n <= f)%nat /\ (q == Qmake i (Z.to_pos (10 ^ Z.of_nat n)))%Q.
