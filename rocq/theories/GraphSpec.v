(** Reachability and cycles, stated on relations. *)
From Coq Require Import List Arith Bool Permutation.
Import ListNotations.
From Verif Require Import GraphModel.

(** [reach E a b]: a path of any length, including the empty one *)
Inductive reach (E : nat -> nat -> Prop) : nat -> nat -> Prop :=
| reach_refl a : reach E a a
| reach_step a b c : E a b -> reach E b c -> reach E a c.

(** a cycle through [a]: at least one edge *)
Definition on_cycle (E : nat -> nat -> Prop) (a : nat) : Prop := exists b, E a b /\ reach E b a.

(** the edges recorded in a graph and those inserted by a sequence of insertions *)
Definition edge {A} (g : graph A) (a b : nat) : Prop := exists w, In ((a, b), w) g.

(** the weight that the last insertion of an edge gave it *)
Definition last_weight {A} (es : list ((nat * nat) * A)) (a b : nat) (w : A) : Prop :=
  exists before after, es = before ++ ((a, b), w) :: after /\ forall w', ~ In ((a, b), w') after.

(** a cycle that goes through an edge marked negative *)
Definition cycle_through (E N : nat -> nat -> Prop) : Prop := exists a b, N a b /\ E a b /\ reach E b a.

(** what [petgraph::algo::tarjan_scc] is documented to return: the strongly connected
    components, each node in exactly one *)
Definition is_scc (E : nat -> nat -> Prop) (all : list nat) (scc : list (list nat)) : Prop :=
  Permutation (concat scc) all /\
  forall c a b, In c scc -> In a c -> In b all -> (In b c <-> reach E a b /\ reach E b a).
