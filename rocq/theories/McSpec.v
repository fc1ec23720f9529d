(* What is expected of the server for language models. *)
From Coq Require Import String Ascii List Bool Arith NArith.
From Verif Require Import McModel.
Import ListNotations.
Open Scope nat_scope.
Open Scope list_scope.

(* Pages followed from a cursor up to the last one, and what they list. *)
Inductive walk {A} (l : list A) : option string -> list A -> Prop :=
| walk_last c x : page l (Some c) = Some (x, None) -> walk l c x
| walk_next c c' x y : page l (Some c) = Some (x, Some c') -> walk l (Some c') y -> walk l c (x ++ y).

(* RFC 5424: from the most to the least severe. *)
Definition severities : list level := [Emergency; Alert; Critical; Error; Warning; Notice; Info; Debug].

(* The first level is as severe as the second, or more. *)
Definition as_severe (a b : level) : Prop :=
  exists l m r, severities = l ++ m ++ r /\ hd_error m = Some a /\ In b m.

(* Times that do not go back. *)
Fixpoint forward (t : nat) (l : list nat) : Prop :=
  match l with
  | [] => True
  | x :: r => t <= x /\ forward x r
  end.

(* How many lie from t up to, but without, t + w. *)
Definition within (t w : nat) (l : list nat) : nat :=
  length (filter (fun x => (t <=? x) && (x <? t + w)) l).

Section Store.
Context {L : store}.

(* What is written is read back. *)
Definition faithful : Prop :=
  (forall p, decode (encode p) = Some p) /\ (forall g, of_nt (to_nt g) = Some g) /\
  (forall g, merge nothing g = g).

(* A line of N-Triples with a triple. *)
Definition triple_line (s : string) : Prop :=
  (forall c, In c (list_ascii_of_string s) -> c <> newline) /\
  exists c r, s = String c r /\ white c = false /\ c <> "#"%char.

Fixpoint text_of (l : list string) : string :=
  match l with
  | [] => EmptyString
  | s :: l => (s ++ String newline (text_of l))%string
  end.

(* Names of a disk: the target and the temporary file are two files, both there already. *)
Definition proper (d : disk) : Prop :=
  (forall i, target d = Some i -> i < next d) /\ (forall i, temp d = Some i -> i < next d) /\
  (forall i, target d = Some i -> temp d <> Some i).

End Store.
