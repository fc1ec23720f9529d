(* Sizes as they are written, and what they say. *)
From Coq Require Import List String Ascii Bool Arith NArith.
From Verif Require Import SzModel.
Import ListNotations.
Open Scope list_scope.

Definition blank (s : text) : Prop := Forall (fun c => In (nat_of_ascii c) [9; 10; 11; 12; 13; 32]) s.
Definition decimal (s : text) : Prop := Forall (fun c => 48 <= nat_of_ascii c <= 57) s.
(* the number that digits say *)
Definition value (s : text) : N := fold_left (fun n c => (n * 10 + N.of_nat (nat_of_ascii c - 48))%N) s 0%N.

(* a number as it is written, its digits, and how many are behind the point *)
Inductive numeral : text -> N -> nat -> Prop :=
| Whole a : decimal a -> a <> [] -> numeral a (value a) 0
| Point a b : decimal a -> decimal b -> a ++ b <> [] -> numeral (a ++ "."%char :: b) (value (a ++ b)) (List.length b)
| Plus s n k : (forall t, s <> "+"%char :: t) -> numeral s n k -> numeral ("+"%char :: s) n k.

(* the names of units: for powers of 1024, and for powers of 1000 *)
Inductive unit_of : text -> N -> Prop :=
| Bytes : unit_of [] 1
| Binary l e t : In (l, e) [("K", 1); ("M", 2); ("G", 3); ("T", 4)]%char%N ->
    In t [[]; chars "i"; chars "iB"] -> unit_of (l :: t) (1024 ^ e)
| Small l e : In (l, e) [("k", 1); ("m", 2); ("g", 3); ("t", 4)]%char%N -> unit_of [l] (1024 ^ e)
| Thousands l e : In (l, e) [("K", 1); ("M", 2); ("G", 3); ("T", 4)]%char%N -> unit_of [l; "B"%char] (1000 ^ e).

(* a size of v bytes: a number, a unit, and white space around both *)
Inductive size : text -> N -> Prop :=
| Size p x q u r n k m : blank p -> blank q -> blank r -> numeral x n k -> unit_of u m ->
    size (p ++ x ++ q ++ u ++ r) (n * m / 10 ^ N.of_nat k).
