(* What the neighbourhood of a node is.  Of the model only the data types are used. *)
From Coq Require Import List String Bool.
Import ListNotations.
From Verif Require Import NbModel.
Open Scope list_scope.

(* a pattern *)
Definition suits {A : Type} (x : option A) (a : A) : Prop := x = None \/ x = Some a.
Definition has (g : graph) (s : subject) (p : string) (o : term) : Prop := In {| t_s := s; t_p := p; t_o := o |} g.
(* the arcs of a node *)
Inductive arc (g : graph) (node : term) : pred -> term -> Prop :=
| Arc_direct s p o : node = TSub s -> has g s p o -> arc g node (Direct p) o
| Arc_inverse s p : has g s p node -> arc g node (Inverse p) (TSub s).
Definition graph_of (b : backend) : graph := match b with InMemory g => g | Remote e => e_graph e end.
Definition graphs (d : data) : list graph := graph_of (primary d) :: List.map e_graph (used d).
Definition up (b : backend) : Prop := match b with InMemory _ => True | Remote e => e_up e = true end.
Definition all_up (d : data) : Prop := up (primary d) /\ forall e, In e (used d) -> e_up e = true.
Definition blank (n : term) : Prop := exists b, n = TSub (SBlank b).
Definition fresh (d : data) : Prop := (forall e, primary d = Remote e -> e_cache e = []) /\ forall e, In e (used d) -> e_cache e = [].
Definition requests (d : data) : list nat := match primary d with Remote e => [e_asked e] | InMemory _ => [] end ++ List.map e_asked (used d).
