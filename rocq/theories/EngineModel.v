(** Checking a node against a shape expression.

    shex_validation/src/engine.rs lines 232-276 (dep), 461-607 (check_node_shape_expr),
    609-626 (check_node_ref), 628-675 (check_node_shape), 1618-1663 (neighs), 1861-2010
    (check_expr_neigh), 2091-2114 (cond_has_ref, matches_any_leaf);
    shex_ast/src/ir/shape_expr.rs lines 42-52 (direct_references), 81-150 (references),
    shex_ast/src/ir/shape.rs lines 15-24, 62-87, 119-131;
    rudof_rdf/src/rdf_core/neighs_rdf.rs lines 203-245 (arcs from list).

    Simplifications: nodes, IRIs and shape indices are numbers; the predicate [p] in the
    direction of the arc is [direct p], against it [inverse p]. The graph is a list of
    triples without repetition, and the hash maps of arcs are iterated in its order. The
    context given to semantic actions is that of the value. The hash map of references is
    the list of its (predicate, shape) pairs. Errors carry no payload, and the errors of
    the RDF interface do not occur. External resolvers are a function of the node and the
    shape. The check of shapes with EXTENDS is an argument. *)
From Coq Require Import List Arith Bool Cantor.
Import ListNotations.
From Verif Require Import GraphModel PendingModel TableModel ProveModel.

(** shape_expr.rs / pred.rs: a predicate and its direction *)
Definition direct (p : nat) : nat := 2 * p.
Definition inverse (p : nat) : nat := 2 * p + 1.
Definition is_direct (k : nat) : bool := Nat.even k.

(** a pair of a node and a shape as one number *)
Definition key (n l : nat) : nat := Cantor.to_nat (n, l).
Definition node_of (k : nat) : nat := fst (Cantor.of_nat k).
Definition label_of (k : nat) : nat := snd (Cantor.of_nat k).

Record shape := mkShape {
  s_closed : bool; s_extra : list nat; s_table : table; s_preds : list nat; s_extends : list nat }.

Inductive sexpr :=
| EOr (l : list nat)
| EAnd (l : list nat)
| ENot (i : nat)
| ENode (c : mcond)
| EShape (s : shape)
| EExternal
| ERef (i : nat)
| EEmpty.

Record schema := mkSchema { shapes : list (nat * sexpr); abstract : list nat; inherit : graph unit }.

Fixpoint assoc (i : nat) (l : list (nat * sexpr)) : option sexpr :=
  match l with
  | [] => None
  | (j, e) :: r => if Nat.eqb i j then Some e else assoc i r
  end.
(** [find_shape_idx] *)
Definition find (sch : schema) (i : nat) : option sexpr := assoc i (shapes sch).

Definition rdf := list (nat * nat * nat).

(** engine.rs lines 1618-1663: the arcs of a node over a list of predicates, and the
    predicates of its other outgoing arcs *)
Definition outgoing (n : nat) (preds : list nat) (g : rdf) : list (nat * nat) :=
  flat_map (fun t => match t with (s, p, o) =>
    if Nat.eqb s n && mem (direct p) preds then [(direct p, o)] else [] end) g.
Definition incoming (n : nat) (preds : list nat) (g : rdf) : list (nat * nat) :=
  flat_map (fun t => match t with (s, p, o) =>
    if Nat.eqb o n && mem (inverse p) preds then [(inverse p, s)] else [] end) g.
Definition neighs (n : nat) (preds : list nat) (g : rdf) : list (nat * nat) * list nat :=
  (outgoing n preds g ++ incoming n preds g,
   flat_map (fun t => match t with (s, p, _) =>
     if Nat.eqb s n && negb (mem (direct p) preds) then [p] else [] end) g).

(** shape_expr.rs lines 42-52 *)
Definition direct_references (e : sexpr) : list nat :=
  match e with
  | EOr l => l
  | EAnd l => l
  | ENot i => [i]
  | ERef i => [i]
  | _ => []
  end.

(** shape.rs lines 119-131 [get_value_expr_references] *)
Definition value_references (s : shape) : list (nat * nat) :=
  flat_map (fun kc : nat * mcond => match snd kc with CRef r => [(fst kc, r)] | _ => [] end)
           (combine (t_ckey (s_table s)) (t_cond (s_table s))).

(** shape_expr.rs lines 86-150, shape.rs lines 70-87 [references_visited]: the loop over
    the labels, where [rec] is the call on the expression of a label *)
Fixpoint visit (rec : sexpr -> list nat -> option (list (nat * nat) * list nat)) (sch : schema)
    (l : list nat) (acc : list (nat * nat)) (visited : list nat) : option (list (nat * nat) * list nat) :=
  match l with
  | [] => Some (acc, visited)
  | i :: r =>
      if mem i visited then visit rec sch r acc visited
      else match find sch i with
           | None => visit rec sch r acc (i :: visited)
           | Some e =>
               match rec e (i :: visited) with
               | None => None
               | Some (refs, visited') => visit rec sch r (acc ++ refs) visited'
               end
           end
  end.

Fixpoint references_visited (fuel : nat) (default_pred : nat) (sch : schema) (e : sexpr) (visited : list nat)
    : option (list (nat * nat) * list nat) :=
  match fuel with
  | 0 => None
  | S f =>
      let rec := references_visited f default_pred sch in
      match e with
      | EOr l => visit rec sch l [] visited
      | EAnd l => visit rec sch l [] visited
      | ENot i => visit rec sch [i] [] visited
      | EShape s => visit rec sch (s_extends s) (value_references s) visited
      | ERef i => visit rec sch [i] [(default_pred, i)] visited
      | ENode _ | EExternal | EEmpty => Some ([], visited)
      end
  end.

(** lines 81-84 [references]; a label is visited once, so this is fuel enough *)
Definition references (default_pred : nat) (sch : schema) (e : sexpr) : list (nat * nat) :=
  match references_visited (S (S (length (shapes sch)))) default_pred sch e [] with
  | Some (refs, _) => refs
  | None => []
  end.

(** engine.rs lines 2091-2097 *)
Fixpoint cond_has_ref (c : mcond) : bool :=
  match c with
  | CRef _ => true
  | CAnd cs => existsb cond_has_ref cs
  | CSingle _ => false
  end.

Section Engine.
  Variable eval : nat -> nat -> bool.
  (** the external resolvers: is the node conformant to the external shape? *)
  Variable external : nat -> nat -> bool.
  (** [Pred::default()] *)
  Variable default_pred : nat.
  (** engine.rs lines 677-1050 [check_node_shape_extends], of a label, a node and a shape *)
  Variable check_extends : nat -> nat -> shape -> (nat -> bool) -> bool.
  Variable sch : schema.
  Variable g : rdf.

  (** engine.rs lines 232-276 [dep]; a missing shape is an error, see [engine_missing] *)
  Definition engine_dep (k : nat) : list nat :=
    match find sch (label_of k) with
    | None => []
    | Some e =>
        let refs := references default_pred sch e in
        map (key (node_of k)) (direct_references e) ++
        flat_map (fun pn : nat * nat =>
                    flat_map (fun pr : nat * nat => if Nat.eqb (fst pr) (fst pn) then [key (snd pn) (snd pr)] else []) refs)
                 (fst (neighs (node_of k) (map fst refs) g))
    end.

  Definition engine_missing (k : nat) : bool :=
    match find sch (label_of k) with Some _ => false | None => true end.

  (** schema_ir.rs lines 118-120 and 190-192 *)
  Definition engine_abstract (k : nat) : bool := mem (label_of k) (abstract sch).
  Definition engine_desc (k : nat) : list nat :=
    match descendants (S (S (length (inherit sch)))) (inherit sch) (label_of k) with
    | Some l => map (key (node_of k)) l
    | None => []
    end.

  (** lines 2103-2114 *)
  Definition matches_any_leaf (t : table) (k v : nat) : bool :=
    existsb (fun kc : nat * mcond =>
               Nat.eqb (fst kc) k && (cond_has_ref (snd kc) || is_some (cond_matches eval (snd kc) v)))
            (combine (t_ckey t) (t_cond t)).

  (** lines 1861-2010: the loop over the items of the iterator *)
  Fixpoint some_item (typing : nat -> bool) (l : list item) : bool :=
    match l with
    | [] => false
    | IErr :: _ => false
    | IOk p :: r =>
        if forallb (fun vr : nat * nat * list nat => typing (key (fst (fst vr)) (snd (fst vr)))) (p_iter_vr p) then true
        else some_item typing r
    end.
  Definition check_expr_neigh (t : table) (vs : list (nat * nat)) (typing : nat -> bool) : bool :=
    some_item typing (matches eval t vs).

  (** lines 628-675 *)
  Definition candidate_preds (s : shape) : list nat :=
    fold_left (fun acc p => if mem p acc then acc else acc ++ [p]) (s_extra s) (s_preds s).
  Definition check_node_shape (n : nat) (s : shape) (typing : nat -> bool) : bool :=
    let (values, reminder) := neighs n (candidate_preds s) g in
    let vs := filter (fun kv : nat * nat => negb (mem (fst kv) (s_extra s)) ||
                                            matches_any_leaf (s_table s) (fst kv) (snd kv)) values in
    if s_closed s && negb (match reminder with [] => true | _ => false end) then false
    else check_expr_neigh (s_table s) vs typing.

  (** lines 461-607; [l] the label under which the expression is checked *)
  Definition check_node_shape_expr (l n : nat) (e : sexpr) (typing : nat -> bool) : bool :=
    match e with
    | EAnd es => forallb (fun i => typing (key n i)) es
    | EOr es => existsb (fun i => typing (key n i)) es
    | ENot i => negb (typing (key n i))
    | ENode c => is_some (cond_matches eval c n)
    | EShape s => match s_extends s with
                  | [] => check_node_shape n s typing
                  | _ => check_extends l n s typing
                  end
    | EExternal => external n l
    | ERef i => typing (key n i)
    | EEmpty => true
    end.

  Definition engine_check (k : nat) (typing : nat -> bool) : bool :=
    match find sch (label_of k) with
    | Some e => check_node_shape_expr (label_of k) (node_of k) e typing
    | None => false
    end.

  Variable ord : nat -> list nat -> list nat.

  (** [Engine::prove] and [validate_pending] on this schema and graph *)
  Definition engine_prove (fuel : nat) (n l : nat) (s : state) : outcome * state :=
    prove engine_dep engine_missing engine_abstract engine_desc engine_check ord fuel (key n l) [] s.
  Definition engine_run (fuel : nat) (pending : list nat) (s : state) : option (list (nat * bool)) * state :=
    validate_pending engine_dep engine_missing engine_abstract engine_desc engine_check ord fuel pending s.
End Engine.
