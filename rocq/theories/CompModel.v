(** Compiling a ShEx schema: shex_ast/src/ir/ast2ir.rs lines 69-143 (compile), 198-217, 228-280 (labels and
    shape expressions), 294-413 (compile_shape_expr), 434-452 (cnv_closed, cnv_extra), 463-592
    (triple_expr2rbe), 620-648 (cardinalities), 652-756 (value_expr2match_cond), 758-803 (get_preds), 805-877
    (labels of triple expressions, semantic actions), 967-977 (options2match_cond);
    shex_ast/src/ir/schema_ir.rs lines 155-165 (add_shape), 440-447 (new_index), 528-539
    (get_shape_label_idx, replace_shape), 577-590 (build_inheritance_graph);
    shex_ast/src/ast/triple_expr.rs lines 13-73, shape.rs lines 8-27.

    Simplifications: labels of shapes are numbers, [Start] is the number [start]; labels of triple expressions,
    predicates and semantic actions are numbers (names with prefixes have been resolved). The imported schemas
    have been fetched: they are a list, in the order in which the code visits them. The indices of shapes are
    given out one after the other and never taken back, so the map of shapes is a list. A node constraint is the
    list of its parts, whose compilation is that of NcModel; it does not fail. The condition made for a missing
    value expression (line 739) always holds and is [CSingle None]. The field [negated] of triple constraints,
    which the compiler does not read, annotations and the actions of shapes are left out. Errors carry no payload. *)
From Coq Require Import List Arith Bool ZArith.
Import ListNotations.
From Verif Require Import RbeModel PendingModel TableModel GraphModel EngineModel.

Inductive res (A : Type) := Ok (a : A) | Err | OutOfFuel.
Arguments Ok {A} a.
Arguments Err {A}.
Arguments OutOfFuel {A}.
Definition bind {A B} (r : res A) (k : A -> res B) : res B :=
  match r with Ok a => k a | Err => Err | OutOfFuel => OutOfFuel end.
Notation "'do' x <- r ; k" := (bind r (fun x => k)) (at level 200, x pattern, r at level 100, k at level 200).

(** ** syntax trees *)

(** a part of a node constraint: node kind, datatype or value set; or the facets *)
Inductive part := POne (kind : nat) | PFacets (kinds : list nat).

Inductive ase :=
| AOr (l : list ase)
| AAnd (l : list ase)
| ANot (e : ase)
| ANode (ps : list part)
| AShape (closed : option bool) (extra : option (list nat)) (expression : option ate) (extends : list nat)
| AExternal
| ARef (r : nat)
with ate :=
| AEach (id : option nat) (l : list ate) (mn mx : option Z) (acts : list nat)
| AOne (id : option nat) (l : list ate) (mn mx : option Z) (acts : list nat)
| ATc (id : option nat) (inv : option bool) (predicate : nat) (value : option ase) (mn mx : option Z) (acts : list nat)
| AInc (r : nat).

Record decl := mkDecl { d_id : nat; d_expr : ase; d_abstract : bool }.
Record aschema := mkAschema { a_start : option ase; a_shapes : list decl }.
Definition start : nat := 0.

(** ** the schema under construction *)
Record ir := mkIr { ir_labels : list (nat * nat); ir_store : list sexpr; ir_abstract : list nat }.
Definition ir_new : ir := mkIr [] [] [].

Fixpoint lookup {A} (k : nat) (m : list (nat * A)) : option A :=
  match m with
  | [] => None
  | (k', a) :: r => if Nat.eqb k k' then Some a else lookup k r
  end.
Fixpoint set_nth {A} (i : nat) (a : A) (l : list A) : list A :=
  match l, i with
  | [], _ => []
  | _ :: r, 0 => a :: r
  | x :: r, S i => x :: set_nth i a r
  end.

(** schema_ir.rs 155-165; a later entry for a label hides the earlier ones *)
Definition add_shape (l : nat) (e : sexpr) (s : ir) : nat * ir :=
  let i := length (ir_store s) in (i, mkIr ((l, i) :: ir_labels s) (ir_store s ++ [e]) (ir_abstract s)).
(** 440-447 *)
Definition new_index (s : ir) : nat * ir :=
  (length (ir_store s), mkIr (ir_labels s) (ir_store s ++ [EEmpty]) (ir_abstract s)).
(** 537-539 *)
Definition replace_shape (i : nat) (e : sexpr) (s : ir) : ir :=
  mkIr (ir_labels s) (set_nth i e (ir_store s)) (ir_abstract s).
(** 106-108 *)
Definition add_abstract (i : nat) (s : ir) : ir := mkIr (ir_labels s) (ir_store s) (i :: ir_abstract s).
(** 528-535 *)
Definition get_idx (l : nat) (s : ir) : res nat := match lookup l (ir_labels s) with Some i => Ok i | None => Err end.

(** a loop over a list that threads a state and stops at the first error *)
Fixpoint each {A B S} (h : A -> S -> res (B * S)) (l : list A) (s : S) : res (list B * S) :=
  match l with
  | [] => Ok ([], s)
  | a :: r => do (b, s1) <- h a s; do (bs, s2) <- each h r s1; Ok (b :: bs, s2)
  end.

(** ** small conversions *)

(** ast2ir.rs 635-650 *)
Definition cnv_min (mn : option Z) : res nat :=
  match mn with
  | Some m => if (m <? 0)%Z then Err else Ok (Z.to_nat m)
  | None => Ok 1
  end.
Definition cnv_max (mx : option Z) : res max :=
  match mx with
  | Some m => if (m =? -1)%Z then Ok Unbounded else if (m <? -1)%Z then Err else Ok (IntMax (Z.to_nat m))
  | None => Ok (IntMax 1)
  end.
(** 626-633 *)
Definition mk_card_group (r : rbe_struct) (c : card) : rbe_struct :=
  if is_1_1 c then r else if is_star c then rs_star r else if is_plus c then rs_plus r else rs_repeat r (cmin c) (cmax c).
(** 607-618 *)
Definition cnv_predicate (p : nat) (inv : option bool) : nat :=
  match inv with Some true => EngineModel.inverse p | _ => direct p end.
(** 434-452 *)
Definition cnv_closed (c : option bool) : bool := match c with Some b => b | None => false end.
Definition cnv_extra (e : option (list nat)) : list nat := match e with Some l => map direct l | None => [] end.
(** 907-951, 967-977 *)
Definition part_cond (p : part) : mcond :=
  match p with
  | POne k => CSingle (Some k)
  | PFacets ks => CAnd (map (fun k => CSingle (Some k)) ks)
  end.
Definition node_cond (ps : list part) : mcond :=
  match ps with
  | [] => CSingle None
  | [p] => part_cond p
  | _ => CAnd (map part_cond ps)
  end.

Section Compile.
  (** the actions with code in the registry *)
  Variable known : nat -> bool.
  (** the triple expressions with a label *)
  Variable labelled : list (nat * ate).

  (** 866-876 *)
  Definition sem_acts_to_conds (acts : list nat) : res (list mcond) :=
    if forallb known acts then Ok (map (fun a => CSingle (Some a)) acts) else Err.
  (** 743-752 *)
  Definition with_acts (acts : list mcond) (c : mcond) : mcond := match acts with [] => c | _ => CAnd (acts ++ [c]) end.

  (** 766-803 [get_preds_triple_expr]; a reference is followed once *)
  Fixpoint get_preds (fuel : nat) (e : ate) (visited : list nat) : res (list nat) :=
    match fuel with
    | 0 => OutOfFuel
    | S f =>
        match e with
        | AEach _ l _ _ _ | AOne _ l _ _ _ =>
            do (pss, _) <- each (fun e (_ : unit) => do ps <- get_preds f e visited; Ok (ps, tt)) l tt; Ok (concat pss)
        | ATc _ inv p _ _ _ _ => Ok [cnv_predicate p inv]
        | AInc r => if mem r visited then Ok [] else match lookup r labelled with
                                                     | None => Err
                                                     | Some e => get_preds f e (r :: visited)
                                                     end
        end
    end.

  (** 316-413 [compile_shape_expr], 652-756 [value_expr2match_cond], 482-592 [triple_expr2rbe_with_refs] *)
  Fixpoint compile_se (fuel : nat) (e : ase) (idx : nat) (s : ir) : res (sexpr * ir) :=
    match fuel with
    | 0 => OutOfFuel
    | S f =>
        let inner e s := let (i, s) := new_index s in do (se, s) <- compile_se f e i s; Ok (i, replace_shape i se s) in
        match e with
        | ARef r => do i <- get_idx r s; Ok (ERef i, s)
        | AOr l => do (is, s) <- each inner l s; Ok (EOr is, replace_shape idx (EOr is) s)
        | AAnd l => do (is, s) <- each inner l s; Ok (EAnd is, replace_shape idx (EAnd is) s)
        | ANot e => do (i, s) <- inner e s; Ok (ENot i, replace_shape idx (ENot i) s)
        | AShape closed extra expression extends =>
            do (t, s) <- match expression with
                         | None => Ok (t_new, s)
                         | Some te => do (r, (t, s)) <- te2rbe f te [] (t_new, s); Ok (with_rbe r t, s)
                         end;
            do ps <- match expression with None => Ok [] | Some te => get_preds f te [] end;
            do (ext, _) <- each (fun l (_ : unit) => do i <- get_idx l s; Ok (i, tt)) extends tt;
            Ok (EShape (mkShape (cnv_closed closed) (cnv_extra extra) t ps ext), s)
        | ANode ps => Ok (ENode (node_cond ps), s)
        | AExternal => Ok (EExternal, s)
        end
    end
  with value_cond (fuel : nat) (v : option ase) (acts : list nat) (s : ir) : res (mcond * ir) :=
    match fuel with
    | 0 => OutOfFuel
    | S f =>
        let inner e s := let (i, s) := new_index s in do (se, s) <- compile_se f e i s; Ok (i, replace_shape i se s) in
        do acts <- sem_acts_to_conds acts;
        do (c, s) <- match v with
                     | None => Ok (CSingle None, s)
                     | Some e =>
                         match e with
                         | ANode ps => Ok (node_cond ps, s)
                         | ARef r => do i <- get_idx r s; Ok (CRef i, s)
                         | AShape _ _ _ _ => do (i, s) <- inner e s; Ok (CRef i, s)
                         | AAnd l => do (is, s) <- each inner l s;
                                     let (i, s) := new_index s in Ok (CRef i, replace_shape i (EAnd is) s)
                         | AOr l => do (is, s) <- each inner l s;
                                    let (i, s) := new_index s in Ok (CRef i, replace_shape i (EOr is) s)
                         | ANot e => do (j, s) <- inner e s;
                                     let (i, s) := new_index s in Ok (CRef i, replace_shape i (ENot j) s)
                         | AExternal => let (i, s) := new_index s in Ok (CRef i, replace_shape i EExternal s)
                         end
                     end;
        Ok (with_acts acts c, s)
    end
  with te2rbe (fuel : nat) (e : ate) (visited : list nat) (ts : table * ir) : res (rbe_struct * (table * ir)) :=
    match fuel with
    | 0 => OutOfFuel
    | S f =>
        match e with
        | AEach _ l mn mx acts =>
            do (rs, ts) <- each (fun e ts => te2rbe f e visited ts) l ts;
            do m <- cnv_min mn; do x <- cnv_max mx;
            do _ <- sem_acts_to_conds acts;
            Ok (mk_card_group (rs_and rs) (mkCard m x), ts)
        | AOne _ l mn mx acts =>
            do (rs, ts) <- each (fun e ts => te2rbe f e visited ts) l ts;
            do m <- cnv_min mn; do x <- cnv_max mx;
            Ok (mk_card_group (rs_or rs) (mkCard m x), ts)
        | ATc _ inv p v mn mx acts =>
            do m <- cnv_min mn; do x <- cnv_max mx;
            let (t, s) := ts in
            do (c, s) <- value_cond f v acts s;
            let (i, t) := add_component (cnv_predicate p inv) c t in
            Ok (rs_symbol i m x, (t, s))
        | AInc r =>
            if mem r visited then Err
            else match lookup r labelled with
                 | None => Err
                 | Some e => te2rbe f e (r :: visited) ts
                 end
        end
    end.
End Compile.

(** ** schemas *)

(** 836-864: the labelled triple expressions in a triple expression *)
Fixpoint te_labels (e : ate) (m : list (nat * ate)) : res (list (nat * ate)) :=
  let register (id : option nat) m :=
    match id with
    | None => Ok m
    | Some l => match lookup l m with Some _ => Err | None => Ok ((l, e) :: m) end
    end in
  let all := fix all (l : list ate) m := match l with [] => Ok m | e :: r => do m <- te_labels e m; all r m end in
  match e with
  | AEach id l _ _ _ | AOne id l _ _ _ => do m <- register id m; all l m
  | ATc id _ _ _ _ _ _ => register id m
  | AInc _ => Ok m
  end.
(** 817-834 *)
Fixpoint se_labels (e : ase) (m : list (nat * ate)) : res (list (nat * ate)) :=
  let all := fix all (l : list ase) m := match l with [] => Ok m | e :: r => do m <- se_labels e m; all r m end in
  match e with
  | AOr l | AAnd l => all l m
  | ANot e => se_labels e m
  | AShape _ _ (Some te) _ => te_labels te m
  | _ => Ok m
  end.
(** 805-815 *)
Definition schema_labels (a : aschema) (m : list (nat * ate)) : res (list (nat * ate)) :=
  do m <- match a_start a with Some e => se_labels e m | None => Ok m end;
  fold_left (fun m d => do m <- m; se_labels (d_expr d) m) (a_shapes a) (Ok m).

(** 198-217, and 236-246 *)
Definition shape_labels (a : aschema) (s : ir) : ir :=
  fold_left (fun s d => let (i, s) := add_shape (d_id d) EEmpty s in if d_abstract d then add_abstract i s else s) (a_shapes a) s.

(** 262-280 *)
Definition shape_exprs (known : nat -> bool) (labelled : list (nat * ate)) (fuel : nat) (a : aschema) (s : ir) : res ir :=
  fold_left (fun s d => do s <- s; do i <- get_idx (d_id d) s; do (e, s) <- compile_se known labelled fuel (d_expr d) i s;
                        Ok (replace_shape i e s)) (a_shapes a) (Ok s).

(** 577-590 *)
Definition inheritance (l : list (nat * sexpr)) : graph unit :=
  fold_left (fun g ie => match snd ie with EShape s => fold_left (fun g e => add_edge g (fst ie) e tt) (s_extends s) g | _ => g end) l [].

(** 69-143; the compiler is new, so no triple expression has a label when the start expression is compiled *)
Definition compile_ir (known : nat -> bool) (fuel : nat) (imported : list aschema) (root : aschema) : res ir :=
  let s := fold_left (fun s a => shape_labels a s) imported ir_new in
  let s := shape_labels root s in
  do s <- match a_start root with
          | None => Ok s
          | Some e => let (i, s) := add_shape start EEmpty s in
                      do (se, s) <- compile_se known [] fuel e i s; Ok (replace_shape i se s)
          end;
  do labelled <- fold_left (fun m a => do m <- m; schema_labels a m) (imported ++ [root]) (Ok []);
  fold_left (fun s a => do s <- s; shape_exprs known labelled fuel a s) (imported ++ [root]) (Ok s).

Definition compiled (s : ir) : schema :=
  let l := combine (seq 0 (length (ir_store s))) (ir_store s) in mkSchema l (ir_abstract s) (inheritance l).
