(** Checking a node against a shape with EXTENDS.

    shex_validation/src/engine.rs lines 677-1050 (check_node_shape_extends), 1053-1108
    (check_node_shape_extends_selections), 1110-1325 (check_node_selection), 1327-1395
    (check_node_constraint_expr), 1397-1575 (check_node_extends_main_shape), 1700-1860
    (collect_all_exprs_for_shape, try_split_constraint, collect_constraint_exprs,
    extends_closure, check_exprs_neigh); shex_ast/src/ir/schema_ir.rs lines 185-187
    (parents), 217-349 (get_main_shape_constraints, extend_alternatives, dereference,
    get_preds_extends); shex_ast/src/ir/shape_expr.rs lines 152-208 (preds).

    Simplifications: those of EngineModel and ClassModel. The entries of a bucket are one
    expression, as in the code. The hash map of buckets is a list, iterated in the order
    [border]; the classes of the partition iterator come in the order [corder]. Errors and
    reasons carry no payload, so that a check answers a boolean. All loops and recursive
    calls take the same fuel: [None] stands for a panic, for a recursion that does not
    end, and for too little fuel. *)
From Coq Require Import List Arith Bool.
Import ListNotations.
From Verif Require Import GraphModel PendingModel TableModel RbeModel StepModel ClassModel ExtModel EngineModel.

(** the parts of a declaration that is extended *)
Record mainparts := mkMain { m_ncs : list mcond; m_main : option shape; m_rest : list sexpr }.

(** the answer of [try_split_constraint] with the expressions pushed *)
Inductive split := NotSplit | SplitFails | Split (tes : list table).

Section Extends.
  Variable eval : nat -> nat -> bool.
  Variable external : nat -> nat -> bool.
  Variable border : list (option nat * table) -> list (option nat * table).
  Variable corder : list class -> list class.
  Variable sch : schema.
  Variable g : rdf.

  (** schema_ir.rs lines 325-336; [seen] grows, and every label of it but the last is
      defined by a reference, so this is fuel enough *)
  Fixpoint deref_loop (fuel : nat) (seen : list nat) (i : nat) : nat :=
    match fuel with
    | 0 => i
    | S f => if mem i seen then i
             else match find sch i with
                  | Some (ERef j) => deref_loop f (i :: seen) j
                  | _ => i
                  end
    end.
  Definition dereference (i : nat) : nat := deref_loop (S (length (shapes sch))) [] i.

  (** lines 217-256 *)
  Definition add_conjunct (m : mainparts) (i : nat) : mainparts :=
    match find sch i with
    | None => m
    | Some (EShape s) => match m_main m with
                         | None => mkMain (m_ncs m) (Some s) (m_rest m)
                         | Some _ => mkMain (m_ncs m) (m_main m) (m_rest m ++ [EShape s])
                         end
    | Some (ENode c) => mkMain (m_ncs m ++ [c]) (m_main m) (m_rest m)
    | Some e => mkMain (m_ncs m) (m_main m) (m_rest m ++ [e])
    end.
  Definition main_shape_constraints (i : nat) : option mainparts :=
    match find sch (dereference i) with
    | Some (EShape s) => Some (mkMain [] (Some s) [])
    | Some (EAnd es) => Some (fold_left add_conjunct es (mkMain [] None []))
    | _ => None
    end.

  (** lines 275-322 [extend_alternatives_rec]; a label is on the path at most once, so
      that fuel beyond the number of labels is enough *)
  Fixpoint conjuncts (rec : nat -> list alternative) (es : list nat) (main : option (list alternative)) (cs : list nat)
      : option (list alternative) * list nat :=
    match es with
    | [] => (main, cs)
    | e :: es =>
        match main with
        | Some _ => conjuncts rec es main (cs ++ [dereference e])
        | None =>
            let alts := rec e in
            if existsb (fun a => match a_buckets a with [] => false | _ => true end) alts
            then conjuncts rec es (Some alts) cs
            else conjuncts rec es None (cs ++ [dereference e])
        end
    end.
  Fixpoint alternatives_rec (fuel : nat) (path : list nat) (i : nat) : list alternative :=
    match fuel with
    | 0 => [alt_default]
    | S f =>
        let i := dereference i in
        if mem i path then [alt_default]
        else
          let rec := alternatives_rec f (i :: path) in
          match find sch i with
          | Some (EShape s) => fold_left (fun acc p => cross_merge acc (rec p)) (s_extends s) [with_bucket i]
          | Some (EOr es) => flat_map rec es
          | Some (EAnd es) =>
              let (main, cs) := conjuncts rec es None [] in
              map (fun a => with_scoped_constraints a cs) (match main with Some l => l | None => [alt_default] end)
          | Some EEmpty | None => [alt_default]
          | Some _ => [with_constraint i]
          end
    end.
  (** lines 268-271 *)
  Definition extend_alternatives (i : nat) : list alternative :=
    alternatives_rec (S (S (length (shapes sch)))) [] i.

  (** ** the buckets *)

  (** class_partitions.rs [class_partitions_iter], drained *)
  Fixpoint drain (fuel : nat) (buckets : list (list table)) (classes : list class) (s : state)
      : option (list (list (list (nat * nat)))) :=
    match fuel with
    | 0 => None
    | S f => match cp_next eval buckets classes f s with
             | None => None
             | Some (None, _) => Some []
             | Some (Some x, s) => option_map (cons x) (drain f buckets classes s)
             end
    end.
  Definition tables_of (bs : list (option nat * table)) : list (list table) := map (fun b => [snd b]) bs.
  Definition partitions (fuel : nat) (bs : list (option nat * table)) (vs : list (nat * nat))
      : option (list (list (list (nat * nat)))) :=
    let buckets := tables_of bs in
    let classes := corder (class_map buckets vs) in
    drain fuel buckets classes (start eval buckets classes).

  (** the arcs allocated to a bucket: [allocated.get(&Some(b))] *)
  Fixpoint allocated (bs : list (option nat * table)) (p : list (list (nat * nat))) (b : nat) : list (nat * nat) :=
    match bs, p with
    | (l, _) :: bs, part :: p =>
        match l with
        | Some b' => if Nat.eqb b b' then part else allocated bs p b
        | None => allocated bs p b
        end
    | _, _ => []
    end.

  (** engine.rs lines 918-1010 and 1240-1300: one partition; each constraint is a list of
      expressions over the arcs of its scope *)
  Definition partition_ok (typing : nat -> bool) (bs : list (option nat * table)) (cs : list (list nat * list table))
      (p : list (list (nat * nat))) : bool :=
    forallb (fun bp : (option nat * table) * list (nat * nat) =>
               check_expr_neigh eval (snd (fst bp)) (snd bp) typing) (combine bs p) &&
    forallb (fun c : list nat * list table =>
               forallb (fun te => check_expr_neigh eval te (flat_map (allocated bs p) (fst c)) typing) (snd c)) cs.

  Definition some_leaf (bs : list (option nat * table)) (kv : nat * nat) : bool :=
    existsb (fun b => matches_any_leaf eval (snd b) (fst kv) (snd kv)) bs.
  Definition no_one {A} (l : list A) : bool := match l with [] => true | _ => false end.
  Definition push_all (l : list nat) (more : list nat) : list nat :=
    fold_left (fun acc p => if mem p acc then acc else acc ++ [p]) more l.

  (** ** one selection *)

  (** lines 1742-1770 *)
  Fixpoint try_split (fuel : nat) (n i : nat) : option split :=
    match fuel with
    | 0 => None
    | S f =>
        match find sch i with
        | Some (EShape s) => match s_extends s with [] => Some (Split [s_table s]) | _ => Some NotSplit end
        | Some (ENode c) => Some (if is_some (cond_matches eval c n) then Split [] else SplitFails)
        | Some (ERef j) => try_split f n j
        | Some (EAnd es) =>
            (fix go (es : list nat) : option split :=
               match es with
               | [] => Some (Split [])
               | e :: es => match try_split f n e with
                            | Some (Split tes) => match go es with
                                                  | Some (Split tes') => Some (Split (tes ++ tes'))
                                                  | r => r
                                                  end
                            | r => r
                            end
               end) es
        | _ => Some NotSplit
        end
    end.

  (** lines 1199-1235: the constraints of the selection; [Some None] when one fails *)
  Fixpoint split_constraints (fuel : nat) (whole : nat -> option bool) (n : nat) (cs : list scoped)
      : option (option (list (list nat * list table))) :=
    match cs with
    | [] => Some (Some [])
    | c :: cs =>
        match try_split fuel n (sc_expr c) with
        | None => None
        | Some SplitFails => Some None
        | Some (Split []) => split_constraints fuel whole n cs
        | Some (Split tes) => option_map (option_map (cons (sc_scope c, tes))) (split_constraints fuel whole n cs)
        | Some NotSplit => match whole (sc_expr c) with
                           | None => None
                           | Some false => Some None
                           | Some true => split_constraints fuel whole n cs
                           end
        end
    end.

  (** lines 1110-1325; [whole] is [check_node_constraint_expr] *)
  Definition selection_buckets (s : shape) (sigma : alternative) : list (option nat * table) :=
    (None, s_table s) ::
    flat_map (fun b => match find sch b with Some (EShape t) => [(Some b, s_table t)] | _ => [] end) (a_buckets sigma).
  Definition selection_preds (s : shape) (sigma : alternative) : list nat :=
    push_all (fold_left (fun acc b => match find sch b with Some (EShape t) => push_all acc (s_preds t) | _ => acc end)
                        (a_buckets sigma) (s_preds s))
             (s_extra s).
  Definition check_selection (fuel : nat) (whole : nat -> option bool) (n : nat) (s : shape) (sigma : alternative)
      (typing : nat -> bool) : option bool :=
    let bs := border (selection_buckets s sigma) in
    let (values, reminder) := neighs n (selection_preds s sigma) g in
    if s_closed s && negb (no_one reminder) then Some false
    else
      let vs := filter (fun kv => some_leaf bs kv || negb (mem (fst kv) (s_extra s))) values in
      if negb (forallb (fun b => feasible_neighs eval (snd b) vs) bs) then Some false
      else match split_constraints fuel whole n (a_constraints sigma) with
           | None => None
           | Some None => Some false
           | Some (Some cs) =>
               match partitions fuel bs vs with
               | None => None
               | Some ps => Some (existsb (partition_ok typing bs cs) ps)
               end
           end.

  (** lines 1053-1108: the selector counts with its first digit fastest *)
  Fixpoint pick (alts : list (list alternative)) (sel : list nat) (sigma : alternative) : option alternative :=
    match alts, sel with
    | [], [] => Some sigma
    | a :: alts, d :: sel => match nth_error a d with
                             | Some x => pick alts sel (merge sigma x)
                             | None => None
                             end
    | _, _ => None
    end.
  Fixpoint advance (alts : list (list alternative)) (sel : list nat) : option (list nat) :=
    match alts, sel with
    | a :: alts, d :: sel => if S d <? length a then Some (S d :: sel) else option_map (cons 0) (advance alts sel)
    | _, _ => None
    end.
  Fixpoint selections (fuel : nat) (check : alternative -> option bool) (alts : list (list alternative)) (sel : list nat)
      : option bool :=
    match fuel with
    | 0 => None
    | S f =>
        match pick alts sel alt_default with
        | None => None
        | Some sigma =>
            match check sigma with
            | None => None
            | Some true => Some true
            | Some false => match advance alts sel with
                            | None => Some false
                            | Some sel => selections f check alts sel
                            end
            end
        end
    end.

  (** ** parents with one alternative each *)

  (** shape_expr.rs lines 152-208; [unwrap] of an undefined label panics *)
  Fixpoint preds_visited (fuel : nat) (visited : list nat) (e : sexpr) : option (list nat * list nat) :=
    match fuel with
    | 0 => None
    | S f =>
        let each := (fix each (es : list nat) (acc visited : list nat) : option (list nat * list nat) :=
          match es with
          | [] => Some (acc, visited)
          | i :: es => match find sch i with
                       | None => None
                       | Some e => match preds_visited f (i :: visited) e with
                                   | None => None
                                   | Some (ps, visited) => each es (acc ++ ps) visited
                                   end
                       end
          end) in
        match e with
        | EOr es | EAnd es => each es [] visited
        | ENot i => each [i] [] visited
        | EShape s => Some (s_preds s, visited)
        | ERef i => if mem i visited then Some ([], visited)
                    else match find sch i with
                         | None => None
                         | Some e => option_map (fun r => (fst r, i :: visited)) (preds_visited f [] e)
                         end
        | ENode _ | EExternal | EEmpty => Some ([], visited)
        end
    end.
  (** schema_ir.rs lines 338-349; the hash set as a list *)
  Fixpoint preds_of_all (fuel : nat) (is : list nat) : option (list nat) :=
    match is with
    | [] => Some []
    | i :: is => match find sch i with
                 | None => preds_of_all fuel is
                 | Some e => match preds_visited fuel [] e, preds_of_all fuel is with
                             | Some (ps, _), Some qs => Some (ps ++ qs)
                             | _, _ => None
                             end
                 end
    end.
  Definition preds_extends (fuel : nat) (i : nat) : option (list nat) :=
    match find sch i with
    | None => Some []
    | Some _ => match parents (S (S (length (inherit sch)))) (inherit sch) i with
                | None => None
                | Some l => preds_of_all fuel (i :: l)
                end
    end.

  (** engine.rs lines 1808-1825; the end of the vector is the head of the list *)
  Fixpoint closure_loop (fuel : nat) (queue result : list nat) : option (list nat) :=
    match fuel with
    | 0 => None
    | S f =>
        match queue with
        | [] => Some result
        | a :: queue =>
            if mem a result then closure_loop f queue result
            else
              let result := result ++ [a] in
              match main_shape_constraints a with
              | Some (mkMain _ (Some m) _) =>
                  closure_loop f (rev (filter (fun e => negb (mem e result)) (s_extends m)) ++ queue) result
              | _ => closure_loop f queue result
              end
        end
    end.
  Definition extends_closure (fuel : nat) (roots : list nat) : option (list nat) := closure_loop fuel (rev roots) [].

  (** lines 1775-1803; [Some None] when a node constraint fails *)
  Definition all_match (n : nat) (ncs : list mcond) : bool := forallb (fun c => is_some (cond_matches eval c n)) ncs.
  Fixpoint collect_constraints (fuel : nat) (n : nat) (e : sexpr) : option (option (list table)) :=
    match fuel with
    | 0 => None
    | S f =>
        match e with
        | EShape s => Some (Some [s_table s])
        | ENode c => Some (if is_some (cond_matches eval c n) then Some [] else None)
        | ERef i =>
            match main_shape_constraints i with
            | None => Some (Some [])
            | Some m =>
                if all_match n (m_ncs m)
                then option_map (option_map (app (match m_main m with Some s => [s_table s] | None => [] end)))
                       ((fix go (es : list sexpr) : option (option (list table)) :=
                           match es with
                           | [] => Some (Some [])
                           | e :: es => match collect_constraints f n e with
                                        | Some (Some l) => option_map (option_map (app l)) (go es)
                                        | r => r
                                        end
                           end) (m_rest m))
                else Some None
            end
        | _ => Some (Some [])
        end
    end.
  Fixpoint collect_each (fuel : nat) (n : nat) (es : list sexpr) : option (option (list table)) :=
    match es with
    | [] => Some (Some [])
    | e :: es => match collect_constraints fuel n e with
                 | Some (Some l) => option_map (option_map (app l)) (collect_each fuel n es)
                 | r => r
                 end
    end.

  (** lines 742-789: the buckets and the constraints of the ancestors; [Some None] when a
      conjunct fails. The scope of a constraint starts with the ancestor. *)
  Fixpoint ancestor_buckets (fuel : nat) (n : nat) (l : list nat)
      : option (option (list (option nat * table) * list (list nat * list table))) :=
    match l with
    | [] => Some (Some ([], []))
    | a :: l =>
        match main_shape_constraints a with
        | None => ancestor_buckets fuel n l
        | Some m =>
            match match m_main m with Some s => extends_closure fuel (s_extends s) | None => Some [] end,
                  collect_each fuel n (m_rest m) with
            | Some scope, Some (Some tes) =>
                if all_match n (m_ncs m)
                then
                  option_map (option_map (fun r : list (option nat * table) * list (list nat * list table) =>
                    (match m_main m with Some s => (Some a, s_table s) :: fst r | None => fst r end,
                     match tes with [] => snd r | _ => (a :: scope, tes) :: snd r end)))
                    (ancestor_buckets fuel n l)
                else Some None
            | Some _, Some None => Some None
            | _, _ => None
            end
        end
    end.

  (** lines 1705-1737 *)
  Fixpoint collect_all (fuel : nat) (visited : list nat) (i : nat) : option (list table * list nat) :=
    match fuel with
    | 0 => None
    | S f =>
        if mem i visited then Some ([], visited)
        else
          let each := (fix each (es : list nat) (acc : list table) (visited : list nat) : option (list table * list nat) :=
            match es with
            | [] => Some (acc, visited)
            | e :: es => match collect_all f visited e with
                         | None => None
                         | Some (ts, visited) => each es (acc ++ ts) visited
                         end
            end) in
          match find sch i with
          | Some (EShape s) => each (s_extends s) [s_table s] (i :: visited)
          | Some (EAnd es) => each es [] (i :: visited)
          | Some (ERef j) => collect_all f (i :: visited) j
          | _ => Some ([], i :: visited)
          end
    end.
  Fixpoint collect_buckets (fuel : nat) (bs : list (option nat * table)) (visited : list nat) : option (list table) :=
    match bs with
    | [] => Some []
    | (None, t) :: bs => option_map (cons t) (collect_buckets fuel bs visited)
    | (Some i, _) :: bs => match collect_all fuel visited i with
                           | None => None
                           | Some (ts, visited) => option_map (app ts) (collect_buckets fuel bs visited)
                           end
    end.
  (** a condition on the predicate holds of the value *)
  Definition covered (ts : list table) (kv : nat * nat) : bool :=
    existsb (fun t => existsb (fun kc : nat * mcond => Nat.eqb (fst kc) (fst kv) && is_some (cond_matches eval (snd kc) (snd kv)))
                              (combine (t_ckey t) (t_cond t))) ts.

  (** lines 1397-1575; the node constraints of references among the other conjuncts *)
  Definition ref_constraints (n : nat) (e : sexpr) : bool :=
    match e with
    | ERef i => match main_shape_constraints i with Some m => all_match n (m_ncs m) | None => true end
    | _ => true
    end.
  Fixpoint check_main (fuel : nat) (n i : nat) (child : shape) (typing : nat -> bool) : option bool :=
    match fuel with
    | 0 => None
    | S f =>
        match main_shape_constraints i with
        | None => Some false
        | Some m =>
            let own := match m_main m with
                       | None => true
                       | Some s =>
                           let t := s_table s in
                           let no_refs := forallb (fun cd => negb (cond_has_ref cd)) (t_cond t) in
                           let overlaps := existsb (fun p => mem p (s_preds s)) (s_preds child) in
                           if negb (no_one (s_preds s)) && no_refs && negb overlaps
                           then check_expr_neigh eval t (filter (covered [t]) (fst (neighs n (s_preds s) g))) typing
                           else true
                       end in
            let chain := match m_main m with
                         | None => Some true
                         | Some s =>
                             (fix go (es : list nat) : option bool :=
                                match es with
                                | [] => Some true
                                | e :: es => match check_main f n e s typing, go es with
                                             | Some b, Some b' => Some (b && b')
                                             | _, _ => None
                                             end
                                end) (s_extends s)
                         end in
            option_map (fun b => own && b && all_match n (m_ncs m) && forallb (ref_constraints n) (m_rest m)) chain
        end
    end.
  Fixpoint check_mains (fuel : nat) (n : nat) (es : list nat) (s : shape) (typing : nat -> bool) : option bool :=
    match es with
    | [] => Some true
    | e :: es => match check_main fuel n e s typing with
                 | Some true => check_mains fuel n es s typing
                 | r => r
                 end
    end.

  (** lines 705-1050 *)
  Definition check_single (fuel : nat) (l n : nat) (s : shape) (typing : nat -> bool) : option bool :=
    match preds_extends fuel l with
    | None => None
    | Some ps =>
        let (values, reminder) := neighs n (push_all ps (s_extra s)) g in
        if s_closed s && negb (no_one reminder) then Some false
        else
          match extends_closure fuel (s_extends s) with
          | None => None
          | Some ancestors =>
              match ancestor_buckets fuel n ancestors with
              | None => None
              | Some None => Some false
              | Some (Some (abs, cs)) =>
                  let bs := border ((None, s_table s) :: abs) in
                  match collect_buckets fuel bs [] with
                  | None => None
                  | Some ts =>
                      let vs := filter (fun kv => some_leaf bs kv ||
                                                  (negb (mem (fst kv) (s_extra s)) && negb (covered ts kv))) values in
                      match check_mains fuel n (s_extends s) s typing with
                      | None => None
                      | Some false => Some false
                      | Some true =>
                          if negb (forallb (fun b => feasible_neighs eval (snd b) vs) bs) then Some false
                          else match partitions fuel bs vs with
                               | None => None
                               | Some parts => Some (existsb (partition_ok typing bs cs) parts)
                               end
                      end
                  end
              end
          end
    end.

  (** ** the check *)

  (** lines 1327-1395, mutually with lines 677-704 *)
  Fixpoint check_constraint (fuel : nat) (n i : nat) (typing : nat -> bool) : option bool :=
    match fuel with
    | 0 => None
    | S f =>
        let rec := fun i => check_constraint f n i typing in
        match find sch i with
        | None => Some true
        | Some (ENode c) => Some (is_some (cond_matches eval c n))
        | Some (EShape s) =>
            match s_extends s with
            | [] => Some (check_node_shape eval g n s typing)
            | es => let alts := map extend_alternatives es in
                    if existsb (fun a => 1 <? length a) alts
                    then selections f (fun sigma => check_selection f rec n s sigma typing) alts (repeat 0 (length alts))
                    else check_single f i n s typing
            end
        | Some (ENot j) => option_map negb (rec j)
        | Some (EAnd es) =>
            (fix go (es : list nat) : option bool :=
               match es with
               | [] => Some true
               | e :: es => match rec e with Some true => go es | r => r end
               end) es
        | Some (EOr es) =>
            (fix go (es : list nat) : option bool :=
               match es with
               | [] => Some false
               | e :: es => match rec e with Some false => go es | r => r end
               end) es
        | Some (ERef j) => rec j
        | Some EEmpty => Some true
        | Some EExternal => Some (external n i)
        end
    end.
  (** lines 677-704 *)
  Definition check_shape_extends (fuel : nat) (l n : nat) (s : shape) (typing : nat -> bool) : option bool :=
    let alts := map extend_alternatives (s_extends s) in
    if existsb (fun a => 1 <? length a) alts
    then selections fuel (fun sigma => check_selection fuel (fun i => check_constraint fuel n i typing) n s sigma typing)
                    alts (repeat 0 (length alts))
    else check_single fuel l n s typing.
End Extends.
