(** Materialising a graph from a ShEx schema and a map of values: shex_ast/src/materialize/materializer.rs lines
    63-98 (materialize), 104-129 (find_start_shape_expr, find_shape_by_label), 131-157 (generate_shape_expr),
    159-181 (generate_shape), 183-259 (generate_triple_expr), 261-300 (apply_map_actions);
    shex_ast/src/ir/actions/map_state.rs lines 9-22;
    rudof_rdf/src/rdf_impl/oxigraph/in_memory.rs lines 974-980 (add_bnode), 989-999 (add_triple).

    Simplifications: the syntax trees are those of CompModel, so that names with prefixes have been resolved. What a
    semantic action says is given by [key]: the IRI in its code, when the action is named Map and the code can be
    read as an IRI or a prefixed name (lines 276-287); nothing otherwise. The graph is a list of triples without
    repetition. The blank node made from the number [k] is [bnode k]. Adding triples does not fail. The recursion
    over shapes is bounded by fuel; running out of it at every amount stands for a recursion without end. *)
From Coq Require Import List Arith Bool ZArith.
Import ListNotations.
From Verif Require Import EngineModel CompModel.

Record mat := mkMat { m_counter : nat; m_graph : rdf }.

Section Materialize.
  Variable bnode : nat -> nat.
  (** IRIs and blank nodes can be subjects *)
  Variable can_be_subject : nat -> bool.
  Variable key : nat -> option nat.
  (** map_state.rs 19-21 *)
  Variable values : nat -> option nat.
  Variable sch : aschema.

  (** in_memory.rs 974-980 *)
  Definition add_bnode (s : mat) : nat * mat := let k := S (m_counter s) in (bnode k, mkMat k (m_graph s)).
  (** 989-999 *)
  Definition same_triple (t u : nat * nat * nat) : bool :=
    let '(s, p, o) := t in let '(s', p', o') := u in Nat.eqb s s' && Nat.eqb p p' && Nat.eqb o o'.
  Definition add_triple (s p o : nat) (m : mat) : mat :=
    mkMat (m_counter m) (if existsb (same_triple (s, p, o)) (m_graph m) then m_graph m else m_graph m ++ [(s, p, o)]).

  (** 104-114 *)
  Definition find_start : res ase :=
    match a_start sch with
    | Some e => Ok e
    | None => match a_shapes sch with d :: _ => Ok (d_expr d) | [] => Err end
    end.
  (** 116-129 *)
  Definition find_label (l : nat) : res ase :=
    match List.find (fun d => Nat.eqb (d_id d) l) (a_shapes sch) with Some d => Ok (d_expr d) | None => Err end.

  (** 261-300 *)
  Fixpoint apply_map (acts : list nat) (n p : nat) (m : mat) : mat :=
    match acts with
    | [] => m
    | a :: r =>
        let m' := match key a with
                  | Some x => match values x with Some v => add_triple n p v m | None => m end
                  | None => m
                  end in
        apply_map r n p m'
    end.

  (** the loops over parts of an expression stop at the first error *)
  Fixpoint loop {A} (h : A -> mat -> res mat) (l : list A) (m : mat) : res mat :=
    match l with
    | [] => Ok m
    | a :: r => do m' <- h a m; loop h r m'
    end.

  (** 131-157, with 159-181 *)
  Fixpoint gen_se (fuel : nat) (e : ase) (n : nat) (m : mat) {struct fuel} : res mat :=
    match fuel with
    | 0 => OutOfFuel
    | S f =>
        match e with
        | AShape _ _ (Some te) _ => gen_te f te n m
        | AShape _ _ None _ => Ok m
        | ARef l => do e' <- find_label l; gen_se f e' n m
        | _ => Ok m
        end
    end
  (** 183-259 *)
  with gen_te (fuel : nat) (e : ate) (n : nat) (m : mat) {struct fuel} : res mat :=
    match fuel with
    | 0 => OutOfFuel
    | S f =>
        match e with
        | AEach _ l _ _ _ => loop (fun e m => gen_te f e n m) l m
        | AOne _ l _ _ _ => loop (fun e m => gen_te f e n m) l m
        | ATc _ _ p value _ _ acts =>
            match value with
            | Some (ARef l) =>
                let (b, m1) := add_bnode m in
                let m2 := add_triple n p b m1 in
                do e' <- find_label l; gen_se f e' b m2
            | Some (AShape closed extra te extends) =>
                let (b, m1) := add_bnode m in
                let m2 := add_triple n p b m1 in
                gen_se f (AShape closed extra te extends) b m2
            | _ => Ok (apply_map acts n p m)
            end
        | AInc _ => Ok m
        end
    end.

  (** 63-98; the root node and the graph *)
  Definition materialize (fuel : nat) (initial : option nat) : res (nat * rdf) :=
    let new := mkMat 0 [] in
    do (n, m) <- match initial with
                 | Some n => if can_be_subject n then Ok (n, new) else Err
                 | None => let (b, m) := add_bnode new in Ok (b, m)
                 end;
    do e <- find_start;
    do m' <- gen_se fuel e n m;
    Ok (n, m_graph m').
End Materialize.
