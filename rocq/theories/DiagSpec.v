(** What the explanation of a failed match should say (C50). *)
From Coq Require Import List Arith.
Import ListNotations.
From Verif Require Import RbeModel RbeSpec.

(** the expression has an occurrence of [x] with cardinality [c] *)
Inductive declared (x : nat) (c : card) : rbe -> Prop :=
| DSymbol : declared x c (Symbol x c)
| DAnd e vs : In e vs -> declared x c e -> declared x c (And vs)
| DOr e vs : In e vs -> declared x c e -> declared x c (Or vs)
| DStar e : declared x c e -> declared x c (Star e)
| DPlus e : declared x c e -> declared x c (Plus e)
| DRepeat e d : declared x c e -> declared x c (Repeat e d).

(** the cardinality failures an error names *)
Definition failures (er : derr) : list (nat * card * nat) :=
  match er with
  | CardinalityFail s c n => [(s, c, n)]
  | CardinalityFailMulti vs => vs
  | _ => []
  end.

(** the number of occurrences of [x] in [b] is at fault: no accepted bag has as many *)
Definition at_fault (e : rbe) (b : list nat) (x : nat) : Prop := forall b', lang e b' -> b' x <> bag_of b x.

(** a conjunction of different symbols *)
Definition flat (e : rbe) : Prop := exists vs, e = And vs /\ (forall v, In v vs -> exists x c, v = Symbol x c).
