(* What an order of shapes should be.  Nothing of the model is used but the type of graphs. *)
From Coq Require Import List String.
Import ListNotations.
From Verif Require Import SjModel SqSpec TopoModel.
Open Scope string_scope.

Definition edge (g : graph) (a b : string) : Prop := exists l, In (a, l) g /\ In b l.
Definition a_node (g : graph) (x : string) : Prop := In x (List.map fst g) \/ exists a, edge g a x.
Inductive path (g : graph) : string -> string -> Prop :=
| P_one a b : edge g a b -> path g a b
| P_more a b c : edge g a b -> path g b c -> path g a c.
Definition cyclic (g : graph) : Prop := exists a, path g a a.

(* One comes before the other in a list. *)
Definition before (l : list string) (x y : string) : Prop := exists a b c, l = (a ++ x :: b ++ y :: c)%list.
(* All nodes once, and what depends on something before it. *)
Definition dependents_first (g : graph) (l : list string) : Prop :=
  NoDup l /\ (forall x, In x l <-> a_node g x) /\ forall a b, edge g a b -> before l a b.
Definition dependencies_first (g : graph) (l : list string) : Prop :=
  NoDup l /\ (forall x, In x l <-> a_node g x) /\ forall a b, edge g a b -> before l b a.

(* A shape refers to another in one of the constraints of its triple expression. *)
Definition refers {L : lib} (ds : list decl) (a b : string) : Prop :=
  exists d closed extra te sa an ex p r, In d ds /\ show_label (d_id d) = a /\ d_expr d = SShape closed extra (Some te) sa an ex /\
    In (p, Some (SRef r)) (constraints te) /\ show_label r = b.
