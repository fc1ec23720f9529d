(** Alternatives of an extended shape: shex_ast/src/ir/extend_alternative.rs.

    Simplification: [ShapeLabelIdx] is a natural number. *)
From Coq Require Import List Arith Bool.
Import ListNotations.
From Verif Require Import GraphModel.

(** lines 33-37 *)
Record scoped := mkScoped { sc_expr : nat; sc_scope : list nat }.
(** lines 26-30 *)
Record alternative := mkAlt { a_buckets : list nat; a_constraints : list scoped }.

(** lines 129-133 *)
Definition push_unique (v : list nat) (x : nat) : list nat := if mem x v then v else v ++ [x].

(** lines 119-127: [iter_mut().find] updates the first entry with the same expression *)
Fixpoint push_unique_constraint (v : list scoped) (c : scoped) : list scoped :=
  match v with
  | [] => [c]
  | e :: r =>
      if Nat.eqb (sc_expr e) (sc_expr c)
      then mkScoped (sc_expr e) (fold_left push_unique (sc_scope c) (sc_scope e)) :: r
      else e :: push_unique_constraint r c
  end.

(** derived [Default], lines 55-70 *)
Definition alt_default : alternative := mkAlt [] [].
Definition with_bucket (idx : nat) : alternative := mkAlt [idx] [].
Definition with_constraint (idx : nat) : alternative := mkAlt [] [mkScoped idx []].
(** lines 75-88 *)
Definition with_scoped_constraints (a : alternative) (idxs : list nat) : alternative :=
  mkAlt (a_buckets a)
        (fold_left (fun cs c => push_unique_constraint cs (mkScoped c (a_buckets a))) idxs (a_constraints a)).
(** lines 106-116 *)
Definition merge (a b : alternative) : alternative :=
  mkAlt (fold_left push_unique (a_buckets b) (a_buckets a))
        (fold_left push_unique_constraint (a_constraints b) (a_constraints a)).
(** lines 137-139 *)
Definition cross_merge (l r : list alternative) : list alternative :=
  flat_map (fun a => map (merge a) r) l.
