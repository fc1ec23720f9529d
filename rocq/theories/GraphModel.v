(** Directed graphs of shapes: the inheritance graph and the dependency graphs.

    shex_ast/src/ir/inheritance_graph.rs lines 11-59, shex_ast/src/ir/dependency_graph.rs
    lines 8-49, shacl/src/ir/dg/mod.rs lines 14-60.

    All three wrap petgraph 0.8 [GraphMap]s. petgraph is a dependency and its source is
    not in /repo; what is used of it is written out here ([GraphMap::add_edge],
    [neighbors], [edges_directed], [Dfs], [algo::toposort]) or, for [algo::tarjan_scc]
    and [algo::is_cyclic_directed], replaced by its documented result (see GraphSpec.v).

    Simplifications: a [GraphMap] keeps its edges in an [IndexMap] and, for each node, the
    vector of its edges in insertion order; edges are never removed, so both are determined
    by the list of edges in insertion order, which is the model's graph. [ShapeLabelIdx]
    is a natural number. Loops are recursive functions on fuel; [None] is lack of fuel. *)
From Coq Require Import List Arith Bool.
Import ListNotations.

Definition mem (x : nat) (l : list nat) : bool := existsb (Nat.eqb x) l.

Section Graph.
  Context {A : Type}.

  Definition graph := list ((nat * nat) * A).

  (** [GraphMap::add_edge]: [IndexMap::insert], which replaces the weight in place when
      the key is present *)
  Fixpoint add_edge (g : graph) (a b : nat) (w : A) : graph :=
    match g with
    | [] => [((a, b), w)]
    | ((a', b'), w') :: r =>
        if Nat.eqb a a' && Nat.eqb b b' then ((a, b), w) :: r
        else ((a', b'), w') :: add_edge r a b w
    end.

  (** successive insertions into an empty graph *)
  Definition graph_of (es : list ((nat * nat) * A)) : graph :=
    fold_left (fun g e => add_edge g (fst (fst e)) (snd (fst e)) (snd e)) es [].

  (** [edges_directed(node, Outgoing)], as pairs of target and weight *)
  Definition out_edges (g : graph) (a : nat) : list (nat * A) :=
    map (fun e => (snd (fst e), snd e)) (filter (fun e => Nat.eqb (fst (fst e)) a) g).

  (** [neighbors] and the same in [Reversed] *)
  Definition succs (g : graph) (a : nat) : list nat := map fst (out_edges g a).
  Definition preds (g : graph) (b : nat) : list nat :=
    map (fun e => fst (fst e)) (filter (fun e => Nat.eqb (snd (fst e)) b) g).

  (** nodes, in order of first insertion *)
  Definition push_new (l : list nat) (x : nat) : list nat := if mem x l then l else l ++ [x].
  Definition nodes (g : graph) : list nat :=
    fold_left (fun l e => push_new (push_new l (fst (fst e))) (snd (fst e))) g [].
End Graph.
Arguments graph : clear implicits.

(** petgraph [Dfs::next], iterated to the end: [stack] with the top at the head,
    [disc] the discovered nodes; the nodes produced, in order *)
Fixpoint dfs (fuel : nat) (succ : nat -> list nat) (stack disc : list nat) : option (list nat) :=
  match fuel with
  | 0 => None
  | S f =>
      match stack with
      | [] => Some []
      | n :: st =>
          if mem n disc then dfs f succ st disc
          else match dfs f succ (rev (filter (fun s => negb (mem s (n :: disc))) (succ n)) ++ st) (n :: disc) with
               | Some l => Some (n :: l)
               | None => None
               end
      end
  end.

(** inheritance_graph.rs lines 36-46 and 49-59 *)
Definition descendants (fuel : nat) (g : graph unit) (node : nat) : option (list nat) :=
  option_map (filter (fun x => negb (Nat.eqb x node))) (dfs fuel (preds g) [node] []).
Definition parents (fuel : nat) (g : graph unit) (node : nat) : option (list nat) :=
  option_map (filter (fun x => negb (Nat.eqb x node))) (dfs fuel (succs g) [node] []).

(** petgraph [algo::toposort]. First pass: the loop on the stack for one start node.
    [fin] holds the finished nodes, last finished first. [inr] is the early [Err]. *)
Fixpoint finish (fuel : nat) (succ : nat -> list nat) (stack disc fin : list nat)
  : option ((list nat * list nat) + unit) :=
  match fuel with
  | 0 => None
  | S f =>
      match stack with
      | [] => Some (inl (disc, fin))
      | n :: st =>
          if mem n disc then finish f succ st disc (if mem n fin then fin else n :: fin)
          else if mem n (succ n) then Some (inr tt)
          else finish f succ (rev (filter (fun s => negb (mem s (n :: disc))) (succ n)) ++ n :: st) (n :: disc) fin
      end
  end.

Fixpoint finish_all (fuel : nat) (succ : nat -> list nat) (starts disc fin : list nat)
  : option ((list nat * list nat) + unit) :=
  match starts with
  | [] => Some (inl (disc, fin))
  | i :: r =>
      if mem i disc then finish_all fuel succ r disc fin
      else match finish fuel succ [i] disc fin with
           | Some (inl (disc', fin')) => finish_all fuel succ r disc' fin'
           | other => other
           end
  end.

(** Second pass: a depth first search of the reversed graph from each finished node,
    keeping what was discovered; a search that produces two nodes is a cycle. *)
Fixpoint single_searches (fuel : nat) (pred : nat -> list nat) (order disc : list nat) : option bool :=
  match order with
  | [] => Some true
  | i :: r =>
      match dfs fuel pred [i] disc with
      | None => None
      | Some l => if 2 <=? length l then Some false else single_searches fuel pred r (l ++ disc)
      end
  end.

(** [toposort(g, None).is_ok()] *)
Definition toposort_ok {A} (fuel : nat) (g : graph A) : option bool :=
  match finish_all fuel (succs g) (nodes g) [] [] with
  | None => None
  | Some (inr _) => Some false
  | Some (inl (_, fin)) => single_searches fuel (preds g) fin []
  end.

(** inheritance_graph.rs lines 25-33 *)
Definition has_cycles (fuel : nat) (g : graph unit) : option bool := option_map negb (toposort_ok fuel g).

(** dependency_graph.rs lines 80-85 and 90-110 *)
Inductive posneg := Pos | Neg.
Definition is_neg (w : posneg) : bool := match w with Neg => true | Pos => false end.
Definition change (w : posneg) : posneg := match w with Pos => Neg | Neg => Pos end.

(** dependency_graph.rs lines 28-39: the first negative edge from [node] that stays
    inside the component *)
Fixpoint first_neg (component : list nat) (node : nat) (es : list (nat * posneg)) : list (nat * nat * list nat) :=
  match es with
  | [] => []
  | (target, w) :: r =>
      if mem target component && is_neg w then [(node, target, component)]
      else first_neg component node r
  end.

(** dependency_graph.rs lines 22-46, where [scc] is what [tarjan_scc] returns *)
Definition neg_cycle (g : graph posneg) (component : list nat) : list (nat * nat * list nat) :=
  flat_map (fun node => first_neg component node (out_edges g node)) component.
Definition neg_cycles (g : graph posneg) (scc : list (list nat)) : list (list (nat * nat * list nat)) :=
  flat_map (fun component => match neg_cycle g component with [] => [] | c => [c] end) scc.

(** dependency_graph.rs lines 48-51 *)
Definition has_neg_cycle (g : graph posneg) (scc : list (list nat)) : bool :=
  match neg_cycles g scc with [] => false | _ => true end.
