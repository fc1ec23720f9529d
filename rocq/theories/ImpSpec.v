(** What importing should do. *)
From Coq Require Import List Arith Bool ZArith.
Import ListNotations.
From Verif Require Import RbeModel PendingModel TableModel GraphModel EngineModel EngineSpec CompModel CompSpec ImpModel.

Section Spec.
  Variable docs : nat -> option doc.
  (** a document names another one *)
  Definition names (d : doc) (i : nat) : Prop := exists l, doc_imports d = Some l /\ In i l.
  (** the documents that a document imports, directly or not *)
  Inductive imports (d : doc) : nat -> Prop :=
  | imports_direct i : names d i -> imports d i
  | imports_further i d' j : imports d i -> docs i = Some d' -> names d' j -> imports d j.
  (** all of them can be had *)
  Definition available (d : doc) : Prop :=
    doc_imports d <> None /\ forall i, imports d i -> exists d', docs i = Some d' /\ doc_imports d' <> None.
  (** there are finitely many of them *)
  Definition finitely_many (d : doc) : Prop := exists all, forall i, imports d i -> In i all.
  (** the schemas that are imported *)
  Definition imported_schema (f : aschema -> aschema) (d : doc) (a : aschema) : Prop :=
    exists i d', imports d i /\ docs i = Some d' /\ a = f (doc_schema d').
  (** a list of them; the schema itself may be among them or not *)
  Definition the_schemas (f : aschema -> aschema) (d : doc) (l : list aschema) : Prop :=
    forall a, In a (l ++ [f (doc_schema d)]) <-> imported_schema f d a \/ a = f (doc_schema d).
End Spec.

(** what a list of declarations says about a label: its first declaration counts *)
Definition says (decls : list decl) (l : nat) (e : ase) : Prop :=
  exists before d after, decls = before ++ d :: after /\ d_id d = l /\ d_expr d = e /\ forall b, In b before -> d_id b <> l.
(** a definition that is supplied from outside: by the first resolver that has one *)
Definition supplied (registry : list (list decl)) (l : nat) (e : ase) : Prop :=
  e <> AExternal /\
  exists before decls after, registry = before ++ decls :: after /\ says decls l e /\
    forall b e', In b before -> says b l e' -> e' = AExternal.
