(** Scheduling of SHACL shapes: the dependency graph of a compiled shapes graph, the test for
    recursion, and the levels in which shapes are validated.

    shacl/src/ir/dg/mod.rs lines 14-61 (DependencyGraph), 84-128 (topological_levels);
    shacl/src/ir/component.rs lines 340-431 (add_edges), shacl/src/ir/node_shape.rs lines 248-269 and
    shacl/src/ir/property_shape.rs lines 291-312 (add_edges), shacl/src/ir/schema.rs lines 122-170
    (shapes_with_targets_by_level), 205-258 (compile), 260-281 (build_dependency_graph);
    petgraph 0.8 [algo::is_cyclic_directed], which is [visit::depth_first_search] stopping at the first
    back edge, written out from its documentation and source as published (not in /repo).

    Simplifications: a shape index is a number. Of a shape only the references and whether it has
    targets are kept. The map of the shapes is the list of its entries; [iter_sorted] sorts them by
    index. Recursion is on fuel; [None] is lack of fuel or a panic. *)
From Coq Require Import List Arith Bool.
Import ListNotations.
From Verif Require Import GraphModel.

(** component.rs: the components that refer to shapes *)
Inductive comp :=
| COr (l : list nat)
| CAnd (l : list nat)
| CXone (l : list nat)
| CNot (i : nat)
| CNode (i : nat)
| CQualified (i : nat) (siblings : list nat)
| CValue.

Record shape := mkShape { comps : list comp; props : list nat; reifiers : list nat; targeted : bool }.
Definition schema := list (nat * shape).

(** [get_shape_from_idx] *)
Fixpoint get_shape (sch : schema) (i : nat) : option shape :=
  match sch with
  | [] => None
  | (j, s) :: r => if Nat.eqb i j then Some s else get_shape r i
  end.

(** [sort_unstable] *)
Fixpoint insert (x : nat) (l : list nat) : list nat :=
  match l with
  | [] => [x]
  | y :: r => if x <=? y then x :: l else y :: insert x r
  end.
Definition sort (l : list nat) : list nat := fold_right insert [] l.

(** ** the dependency graph *)

Definition dstate := (graph posneg * list nat)%type.

(** one reference: an edge, and the traversal of a shape not seen before *)
Definition reference (rec : nat -> shape -> dstate -> option dstate) (sch : schema) (idx target : nat) (w : posneg) (st : dstate)
    : option dstate :=
  match get_shape sch target with
  | None => Some st
  | Some s =>
      let g := add_edge (fst st) idx target w in
      if mem target (snd st) then Some (g, snd st) else rec target s (g, target :: snd st)
  end.
Fixpoint each {A} (f : A -> dstate -> option dstate) (l : list A) (st : dstate) : option dstate :=
  match l with
  | [] => Some st
  | x :: r => match f x st with Some st => each f r st | None => None end
  end.

(** component.rs lines 340-431 *)
Definition comp_edges (rec : nat -> shape -> posneg -> dstate -> option dstate) (sch : schema) (idx : nat) (w : posneg) (c : comp)
    (st : dstate) : option dstate :=
  match c with
  | COr l | CAnd l | CXone l => each (fun i => reference (fun j s => rec j s w) sch idx i w) l st
  | CNot i => reference (fun j s => rec j s (change w)) sch idx i (change w) st
  | CNode i => reference (fun j s => rec j s w) sch idx i w st
  | CQualified i _ => Some (add_edge (fst st) idx i w, snd st)
  | CValue => Some st
  end.

(** node_shape.rs lines 248-269 and property_shape.rs lines 291-312 *)
Fixpoint add_edges (fuel : nat) (sch : schema) (idx : nat) (s : shape) (w : posneg) (st : dstate) : option dstate :=
  match fuel with
  | 0 => None
  | S f =>
      match each (comp_edges (add_edges f sch) sch idx w) (comps s) st with
      | None => None
      | Some st => each (fun i => reference (fun j s => add_edges f sch j s w) sch idx i w) (props s) st
      end
  end.

(** schema.rs lines 260-281 *)
Definition indices (sch : schema) : list nat := sort (map fst sch).
Definition build_graph (fuel : nat) (sch : schema) : option (graph posneg) :=
  option_map fst
    (each (fun idx st => match get_shape sch idx with Some s => add_edges fuel sch idx s Pos st | None => None end)
          (indices sch) ([], [])).

(** ** petgraph: is_cyclic_directed *)

(** one node: [inl] the discovered and the finished nodes, [inr] at a back edge *)
Definition visited := (list nat * list nat)%type.
Fixpoint visit (fuel : nat) (succ : nat -> list nat) (u : nat) (st : visited) : option (visited + unit) :=
  match fuel with
  | 0 => None
  | S f =>
      if mem u (fst st) then Some (inl st)
      else
        (fix neighbours (vs : list nat) (st : visited) : option (visited + unit) :=
           match vs with
           | [] => Some (inl (fst st, u :: snd st))
           | v :: vs =>
               if negb (mem v (fst st)) then
                 match visit f succ v st with
                 | Some (inl st) => neighbours vs st
                 | other => other
                 end
               else if negb (mem v (snd st)) then Some (inr tt)
               else neighbours vs st
           end) (succ u) (u :: fst st, snd st)
  end.
Fixpoint visit_all (fuel : nat) (succ : nat -> list nat) (us : list nat) (st : visited) : option (visited + unit) :=
  match us with
  | [] => Some (inl st)
  | u :: us => match visit fuel succ u st with
               | Some (inl st) => visit_all fuel succ us st
               | other => other
               end
  end.
Definition is_cyclic_directed {A} (fuel : nat) (g : graph A) : option bool :=
  match visit_all fuel (succs g) (nodes g) ([], []) with
  | None => None
  | Some (inl _) => Some false
  | Some (inr _) => Some true
  end.

(** dg/mod.rs lines 56-59: the cycles that the errors list *)
Definition cycles (scc : list (list nat)) : list (list nat) := filter (fun c => 1 <? length c) scc.

(** schema.rs lines 205-258: the errors of [compile]; [scc] is what [tarjan_scc] returns *)
Inductive compiled := NegativeCycles | Cycles | Compiled (g : graph posneg).
(** dg/mod.rs lines 23-46, 61-64: every negative edge of a component ends the search of the node *)
Definition compile (fuel : nat) (sch : schema) (scc : graph posneg -> list (list nat)) : option compiled :=
  match build_graph fuel sch with
  | None => None
  | Some g =>
      match is_cyclic_directed fuel g with
      | None => None
      | Some true => Some (if has_neg_cycle g (scc g) then NegativeCycles else Cycles)
      | Some false => Some (Compiled g)
      end
  end.

(** ** levels: dg/mod.rs lines 84-128 *)

Definition counts := list (nat * nat).
Fixpoint count_of (x : nat) (m : counts) : option nat :=
  match m with
  | [] => None
  | (y, n) :: r => if Nat.eqb x y then Some n else count_of x r
  end.
Fixpoint set_count (x n : nat) (m : counts) : counts :=
  match m with
  | [] => []
  | (y, k) :: r => if Nat.eqb x y then (y, n) :: r else (y, k) :: set_count x n r
  end.

(** lines 100-111; the number of outgoing edges of each node, and the sources of the incoming ones *)
Definition remaining_deps {A} (g : graph A) : counts := map (fun n => (n, length (out_edges g n))) (nodes g).
Definition dependents_of {A} (g : graph A) (b : nat) : list nat :=
  flat_map (fun a => flat_map (fun e : nat * A => if Nat.eqb (fst e) b then [a] else []) (out_edges g a)) (nodes g).

(** lines 123-130: one dependent; [None] is a missing entry or a subtraction below zero *)
Definition done_one (d : nat) (st : counts * list nat) : option (counts * list nat) :=
  match count_of d (fst st) with
  | None => None
  | Some 0 => None
  | Some (S n) => Some (set_count d n (fst st), if Nat.eqb n 0 then snd st ++ [d] else snd st)
  end.
Fixpoint done_list (ds : list nat) (st : counts * list nat) : option (counts * list nat) :=
  match ds with
  | [] => Some st
  | d :: ds => match done_one d st with Some st => done_list ds st | None => None end
  end.

(** lines 119-135 *)
Fixpoint level_loop {A} (fuel : nat) (g : graph A) (rem : counts) (current : list nat) : option (list (list nat)) :=
  match current with
  | [] => Some []
  | _ =>
      match fuel with
      | 0 => None
      | S f =>
          match done_list (flat_map (dependents_of g) current) (rem, []) with
          | None => None
          | Some (rem, next) => option_map (cons current) (level_loop f g rem (sort next))
          end
      end
  end.
Definition topological_levels {A} (fuel : nat) (g : graph A) : option (list (list nat)) :=
  let rem := remaining_deps g in
  level_loop fuel g rem (sort (map fst (filter (fun nc : nat * nat => snd nc =? 0) rem))).

(** schema.rs lines 122-170, of the levels of the graph *)
Definition has_targets (sch : schema) (i : nat) : bool := match get_shape sch i with Some s => targeted s | None => false end.
Definition nonempty {A} (l : list (list A)) : list (list A) := filter (fun x => match x with [] => false | _ => true end) l.
Definition by_level (sch : schema) (levels : list (list nat)) : list (list nat) :=
  let in_graph := concat levels in
  let level0 := sort (filter (has_targets sch) (filter (fun i => negb (mem i in_graph)) (map fst sch)))
                ++ match levels with l0 :: _ => filter (has_targets sch) l0 | [] => [] end in
  nonempty [level0] ++ nonempty (map (filter (has_targets sch)) (tl levels)).
