(** Importing schemas: shex_ast/src/ir/ast2ir.rs lines 69-143 (compile), 145-196 (collect_imports_labels),
    219-226 (resolve); shex_ast/src/ast/schema.rs lines 70-80 (imports_resolved);
    shex_ast/src/ir/external_resolver.rs lines 113-119 (rewrite_ast of the registry), 207-232
    (SchemaExternalResolver).

    Simplifications: the IRIs of documents are numbers. What an IRI dereferences to is a function of the IRI alone
    (the base passed at line 167 is only used to dereference relative IRIs, and an import is resolved against its
    base before); an IRI at which no format gives a schema has no document. The imports of a document are the
    resolved IRIs (each document against its own IRI), or nothing if one of them cannot be resolved. The labels of
    imported shapes, which the code registers during the search, are registered by [compile_ir] in the same order.
    A resolver of external shapes is a list of declarations; those that do not rewrite have an empty list. *)
From Coq Require Import List Arith Bool ZArith.
Import ListNotations.
From Verif Require Import RbeModel PendingModel TableModel GraphModel EngineModel CompModel.

Record doc := mkDoc { doc_imports : option (list nat); doc_schema : aschema }.

(** ** external shapes *)

(** external_resolver.rs 230-232 *)
Definition lookup_decl (decls : list decl) (l : nat) : option decl := List.find (fun d => Nat.eqb (d_id d) l) decls.
(** 217-225 *)
Definition rewrite_decl (externs : list decl) (d : decl) : decl :=
  match d_expr d with
  | AExternal => match lookup_decl externs (d_id d) with Some m => mkDecl (d_id d) (d_expr m) (d_abstract d) | None => d end
  | _ => d
  end.
(** 212-227 *)
Definition rewrite_one (externs : list decl) (a : aschema) : aschema :=
  mkAschema (a_start a) (map (rewrite_decl externs) (a_shapes a)).
(** 114-119 *)
Definition rewrite_ast (registry : list (list decl)) (a : aschema) : aschema :=
  fold_left (fun a r => rewrite_one r a) registry a.

Section Imports.
  Variable registry : list (list decl).
  Variable docs : nat -> option doc.

  (** ast2ir.rs 145-196; the IRIs visited and the schemas collected *)
  Fixpoint collect_imports (fuel : nat) (d : doc) (st : list nat * list (nat * aschema)) : res (list nat * list (nat * aschema)) :=
    match fuel with
    | 0 => OutOfFuel
    | S f =>
        match doc_imports d with
        | None => Err
        | Some l =>
            fold_left (fun st i =>
              do (visited, asts) <- st;
              if mem i visited then Ok (visited, asts)
              else match docs i with
                   | None => Err
                   | Some d' =>
                       do (visited, asts) <- collect_imports f d' (visited ++ [i], asts);
                       Ok (visited, asts ++ [(i, rewrite_ast registry (doc_schema d'))])
                   end) l (Ok st)
        end
    end.

  (** 69-143; the compiled schema and its imported schemas *)
  Definition compile_doc (known : nat -> bool) (fuel : nat) (root : doc) : res (ir * list nat) :=
    do (visited, asts) <- collect_imports fuel root ([], []);
    do s <- compile_ir known fuel (map snd asts) (rewrite_ast registry (doc_schema root));
    Ok (s, visited).
End Imports.
