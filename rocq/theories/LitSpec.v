(** XML Schema lexical spaces of the integer types and booleans, and the number a decimal text denotes. *)
From Coq Require Import ZArith NArith QArith List Bool.
Import ListNotations.
From Verif Require Import NumModel NumSpec LitModel.
Local Open Scope Z_scope.

(** ASCII digits: 0 is 48, 9 is 57; + is 43, - is 45 *)
Definition is_digit (c : N) : Prop := (48 <= c <= 57)%N.
Definition digits_value (s : str) : Z := fold_left (fun a c => 10 * a + (Z.of_N c - 48)) s 0.
Definition unsigned_lexical (s : str) (z : Z) : Prop := s <> [] /\ Forall is_digit s /\ digits_value s = z.
(** an optional sign and digits *)
Inductive int_lexical : str -> Z -> Prop :=
| il_none s z : unsigned_lexical s z -> int_lexical s z
| il_plus s z : unsigned_lexical s z -> int_lexical (43%N :: s) z
| il_minus s z : unsigned_lexical s z -> int_lexical (45%N :: s) (- z).

(** the value spaces *)
Definition int_value (k : ikind) (z : Z) : Prop :=
  match k with
  | KInteger => True
  | KNonNegativeInteger => 0 <= z
  | KPositiveInteger => 0 < z
  | KNonPositiveInteger => z <= 0
  | KNegativeInteger => z < 0
  | KLong => -9223372036854775808 <= z <= 9223372036854775807
  | KShort => -32768 <= z <= 32767
  | KByte => -128 <= z <= 127
  | KUnsignedLong => 0 <= z <= 18446744073709551615
  | KUnsignedInt => 0 <= z <= 4294967295
  | KUnsignedShort => 0 <= z <= 65535
  | KUnsignedByte => 0 <= z <= 255
  end.
Definition xsd_int (k : ikind) (s : str) (z : Z) : Prop := int_lexical s z /\ int_value k z.
(** the range of i128 and u128 *)
Definition fits (k : ikind) (z : Z) : Prop :=
  match k with
  | KNonNegativeInteger | KPositiveInteger => z < 2 ^ 128
  | _ => - 2 ^ 127 <= z < 2 ^ 127
  end.
(** a text with two signs; it is in no lexical space *)
Definition double_sign (s : str) : Prop := exists a b r, s = a :: b :: r /\ (a = 43 \/ a = 45)%N /\ (b = 43 \/ b = 45)%N.
Definition starts_minus (s : str) : Prop := exists r, s = 45%N :: r.
Definition signless (k : ikind) : Prop :=
  match k with KUnsignedByte | KUnsignedShort | KUnsignedInt | KUnsignedLong => True | _ => False end.
Definition xsd_boolean (s : str) (b : bool) : Prop :=
  s = [116; 114; 117; 101]%N /\ b = true \/ s = [49]%N /\ b = true \/
  s = [102; 97; 108; 115; 101]%N /\ b = false \/ s = [48]%N /\ b = false.

(** the canonical text of an integer: no plus sign, no leading zeros, no minus zero *)
Definition canonical_int (s : str) : Prop :=
  match s with
  | [] => False
  | 45%N :: c :: _ => c <> 48%N
  | 43%N :: _ => False
  | 48%N :: r => r = []
  | _ => True
  end.

(** terms *)
Definition term_lexical (t : oxlit) : str := match t with OSimple s | OLang s _ | OTyped s _ => s end.
Definition term_datatype (t : oxlit) : dtype :=
  match t with OSimple _ => DString | OLang _ _ => DLangString | OTyped _ d => d end.
(** xsd:string and rdf:langString literals have their own forms in RDF 1.1 *)
Definition proper (t : oxlit) : Prop :=
  match t with OTyped _ DString | OTyped _ DLangString => False | _ => True end.
(** datatypes whose literals keep their text *)
Definition keeps (d : dtype) : Prop :=
  match d with
  | DInt KInteger | DDecimal | DDouble | DFloat | DXsdInt | DString | DLangString | DOther _ => True
  | _ => False
  end.
Definition ascii (s : str) : Prop := Forall (fun c => (c < 128)%N) s.

(** the number written as [whole.fraction] *)
Definition frac_value (f : str) : Q := Qmake (digits_value f) (Z.to_pos (10 ^ Z.of_nat (length f))).
Inductive decimal_text : str -> str -> Q -> Prop :=
| dt_none w f : Forall is_digit w -> Forall is_digit f -> decimal_text w f (inject_Z (digits_value w) + frac_value f)
| dt_plus w f : Forall is_digit w -> Forall is_digit f -> decimal_text (43%N :: w) f (inject_Z (digits_value w) + frac_value f)
| dt_minus w f : Forall is_digit w -> Forall is_digit f -> decimal_text (45%N :: w) f (- (inject_Z (digits_value w) + frac_value f)).

(** a literal of a numeric datatype that the checks look at, with its number *)
Definition opposite (o : option comparison) : option comparison := option_map CompOpp o.

(** the library contracts used by theorems *)
Definition dates_antisymmetric (L : lib) : Prop := forall a b, cmp_date L b a = opposite (cmp_date L a b).

(** ** floating point texts *)
(** [s] is the word [w], written in small letters, in any case *)
Definition any_case (c x : N) : Prop := x = c \/ ((97 <= c <= 122)%N /\ (x + 32 = c)%N).
Definition spelled (w s : str) : Prop := Forall2 any_case w s.
(** +inf and +infinity in any case *)
Definition plus_infinity (s : str) : Prop :=
  spelled [43; 105; 110; 102]%N s \/ spelled [43; 105; 110; 102; 105; 110; 105; 116; 121]%N s.
(** the lexical space of xsd:double and xsd:float *)
Definition sign_part (s : str) : Prop := s = [] \/ s = [43%N] \/ s = [45%N].
Definition digits_part (s : str) : Prop := s <> [] /\ Forall is_digit s.
Definition mantissa (s : str) : Prop :=
  digits_part s \/ exists a b, s = a ++ 46%N :: b /\ Forall is_digit a /\ Forall is_digit b /\ (a <> [] \/ b <> []).
Definition exponent_part (s : str) : Prop := s = [] \/ exists e g d, s = e :: g ++ d /\ (e = 101 \/ e = 69)%N /\ sign_part g /\ digits_part d.
Definition float_lexical (s : str) : Prop :=
  (exists g m e, s = g ++ m ++ e /\ sign_part g /\ mantissa m /\ exponent_part e) \/
  s = [73; 78; 70]%N \/ s = [43; 73; 78; 70]%N \/ s = [45; 73; 78; 70]%N \/ s = [78; 97; 78]%N.
