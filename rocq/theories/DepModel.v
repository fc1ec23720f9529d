(** The dependency graph of a ShEx schema and the validator's check on it.

    shex_ast/src/ir/shape_expr.rs lines 15-35 (ShapeExpr) and 237-292 (add_edges),
    shex_ast/src/ir/shape.rs lines 15-24 and 107-115 (Shape::add_edges),
    rbe/src/match_cond.rs lines 41-52 (MatchCond), shex_ast/src/ir/schema_ir.rs lines
    551-575 (has_neg_cycle, build_dependency_graph), shex_validation/src/validator.rs
    lines 36-88 (Validator::new, with_neg_cycle_check).

    Simplifications: the parts of shapes and node constraints that these functions do not
    look at (triple expression, facets, annotations) are one number, so that the structural
    equality of [visited.contains] is equality in the model. The schema's hash map is a
    list of pairs with distinct keys, in the order of the iteration. The result of
    [tarjan_scc] is an argument. The recursion is on fuel; [None] is lack of fuel. *)
From Coq Require Import List Arith Bool.
Import ListNotations.
From Verif Require Import GraphModel.

Inductive cond :=
| CondSingle (n : nat)
| CondRef (r : nat)
| CondAnd (cs : list cond).

Inductive sexpr :=
| SOr (l : list nat)
| SAnd (l : list nat)
| SNot (i : nat)
| SNode (n : nat)
| SShape (content : nat) (conds : list cond) (extends : list nat)
| SExternal
| SRef (i : nat)
| SEmpty.

Fixpoint cond_eqb (a b : cond) : bool :=
  match a, b with
  | CondSingle n, CondSingle m => Nat.eqb n m
  | CondRef n, CondRef m => Nat.eqb n m
  | CondAnd l, CondAnd m =>
      (fix go l m := match l, m with
                     | [], [] => true
                     | x :: l', y :: m' => cond_eqb x y && go l' m'
                     | _, _ => false
                     end) l m
  | _, _ => false
  end.
Fixpoint list_eqb {B} (eqb : B -> B -> bool) (l m : list B) : bool :=
  match l, m with
  | [], [] => true
  | x :: l', y :: m' => eqb x y && list_eqb eqb l' m'
  | _, _ => false
  end.
(** derived [PartialEq] *)
Definition sexpr_eqb (a b : sexpr) : bool :=
  match a, b with
  | SOr l, SOr m => list_eqb Nat.eqb l m
  | SAnd l, SAnd m => list_eqb Nat.eqb l m
  | SNot i, SNot j => Nat.eqb i j
  | SNode n, SNode m => Nat.eqb n m
  | SShape n c e, SShape m d f => Nat.eqb n m && list_eqb cond_eqb c d && list_eqb Nat.eqb e f
  | SExternal, SExternal => true
  | SRef i, SRef j => Nat.eqb i j
  | SEmpty, SEmpty => true
  | _, _ => false
  end.

Definition schema := list (nat * sexpr).

(** [find_shape_idx] *)
Fixpoint find (sch : schema) (i : nat) : option sexpr :=
  match sch with
  | [] => None
  | (j, e) :: r => if Nat.eqb i j then Some e else find r i
  end.

Definition visited_contains (v : list sexpr) (e : sexpr) : bool := existsb (sexpr_eqb e) v.

(** shape.rs lines 107-115 *)
Fixpoint shape_edges (source : nat) (g : graph posneg) (w : posneg) (conds : list cond) : graph posneg :=
  match conds with
  | [] => g
  | CondRef r :: rest => shape_edges source (add_edge g source r w) w rest
  | _ :: rest => shape_edges source g w rest
  end.

(** shape_expr.rs lines 237-292; the two loops over [exprs] and the single [expr] of a
    negation are [children] with the polarity passed down *)
Definition children (e : sexpr) : list nat :=
  match e with SOr l => l | SAnd l => l | SNot i => [i] | _ => [] end.
Definition child_polarity (e : sexpr) (w : posneg) : posneg := match e with SNot _ => change w | _ => w end.

(** the loop over the children, where [rec] traverses one of them *)
Fixpoint children_loop (rec : sexpr -> graph posneg * list sexpr -> option (graph posneg * list sexpr))
    (sch : schema) (l : list nat) (st : graph posneg * list sexpr) : option (graph posneg * list sexpr) :=
  match l with
  | [] => Some st
  | i :: r =>
      match find sch i with
      | None => children_loop rec sch r st
      | Some c =>
          if visited_contains (snd st) c then children_loop rec sch r st
          else match rec c (fst st, snd st ++ [c]) with
               | None => None
               | Some st' => children_loop rec sch r st'
               end
      end
  end.

Fixpoint add_edges (fuel : nat) (sch : schema) (source : nat) (e : sexpr) (w : posneg)
    (st : graph posneg * list sexpr) : option (graph posneg * list sexpr) :=
  match fuel with
  | 0 => None
  | S f =>
      match e with
      | SShape _ conds _ => Some (shape_edges source (fst st) w conds, snd st)
      | SRef i => Some (add_edge (fst st) source i w, snd st)
      | _ => children_loop (fun c st' => add_edges f sch source c (child_polarity e w) st') sch (children e) st
      end
  end.

(** schema_ir.rs lines 567-575 *)
Fixpoint build_edges (fuel : nat) (sch : schema) (todo : schema) (g : graph posneg) : option (graph posneg) :=
  match todo with
  | [] => Some g
  | (idx, e) :: r =>
      match add_edges fuel sch idx e Pos (g, []) with
      | None => None
      | Some (g', _) => build_edges fuel sch r g'
      end
  end.
Definition dependency_graph (fuel : nat) (sch : schema) : option (graph posneg) := build_edges fuel sch sch [].

(** validator.rs lines 36-38 and 44-88: does the constructor return a validator? *)
Definition with_neg_cycle_check (check_neg_cycles check_negation_requirement : bool)
    (g : graph posneg) (scc : list (list nat)) : bool :=
  negb (check_neg_cycles && check_negation_requirement && has_neg_cycle g scc).
Definition validator_new (check_negation_requirement : bool) (g : graph posneg) (scc : list (list nat)) : bool :=
  with_neg_cycle_check true check_negation_requirement g scc.
