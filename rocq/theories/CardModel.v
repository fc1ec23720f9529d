(** Model of the serialised form of cardinality bounds, rbe/src/max.rs and
    rbe/src/min.rs.

    Here the machine integers matter, so they are modelled: [usize] and [u64] are
    the integers [0 <= n < 2^64], [i64] the integers [-2^63 <= n < 2^63]; the target
    is a 64-bit one. *)

Require Import ZArith.
Local Open Scope Z_scope.

Definition u64_max : Z := 18446744073709551615.

(** [n as i64] of an unsigned number *)
Definition as_i64 (n : Z) : Z := if n <? 9223372036854775808 then n else n - 18446744073709551616.
(** [n as usize] of a signed number *)
Definition as_usize (n : Z) : Z := if n <? 0 then n + 18446744073709551616 else n.

(** rbe/src/max.rs:10-14 *)
Inductive zmax := ZUnbounded | ZIntMax (n : Z).

(** what a call can do: answer, answer an error, or panic *)
Inductive res (A : Type) := ROk (a : A) | RErr | RPanic.
Arguments ROk {A} a. Arguments RErr {A}. Arguments RPanic {A}.

(** rbe/src/max.rs:112-120 [From<i64> for Max] *)
Definition max_from_i64 (m : Z) : res zmax :=
  if m =? -1 then ROk ZUnbounded
  else if 0 <? m then ROk (ZIntMax (as_usize m)) else RPanic.

(** rbe/src/max.rs:122-126 [From<u64> for Max] *)
Definition max_from_u64 (m : Z) : zmax := ZIntMax m.

(** rbe/src/max.rs:143-154 [Serialize for Max]: the number handed to the serialiser *)
Definition max_serialize (m : zmax) : Z :=
  match m with ZUnbounded => -1 | ZIntMax n => as_i64 n end.

(** rbe/src/max.rs:165-177 [visit_i64] *)
Definition max_visit_i64 (value : Z) : res zmax :=
  if value <? -1 then RErr
  else if value =? -1 then ROk ZUnbounded else max_from_i64 value.

(** rbe/src/max.rs:179-184 [visit_u64] *)
Definition max_visit_u64 (value : Z) : res zmax := ROk (max_from_u64 value).

(** rbe/src/min.rs:52-60 [Serialize for Min] *)
Definition min_serialize (n : Z) : Z := n.
(** rbe/src/min.rs:94-103 [visit_i64] with 40-44 [From<i64> for Min] *)
Definition min_visit_i64 (value : Z) : res Z :=
  if value <? -1 then RErr else ROk (as_usize value).
(** rbe/src/min.rs:105-110 [visit_u64] with 46-50 [From<u64> for Min] *)
Definition min_visit_u64 (value : Z) : res Z := ROk value.

(** A self-describing reader (serde_json): a number written without a sign is handed
    to [visit_u64], one with a sign to [visit_i64], whatever the hint
    ([deserialize_i64], [deserialize_u64]) says. *)
Definition json_visit {A} (vi vu : Z -> res A) (n : Z) : res A := if n <? 0 then vi n else vu n.
Definition max_from_json (n : Z) : res zmax := json_visit max_visit_i64 max_visit_u64 n.
Definition min_from_json (n : Z) : res Z := json_visit min_visit_i64 min_visit_u64 n.
