(** Programs that share a cache: what a validation does to the outside is to read a cache entry, to write one, and
    to walk a HashMap or HashSet in an order it does not know. Such a program is a tree; threads are run one
    operation at a time in any order.

    shacl/src/validator/cache/mod.rs lines 12-24 (ValidationCache), cache/parallel.rs lines 14-35 (a DashMap:
    every operation on it is atomic), cache/shared.rs (all engines have the same one),
    shacl/src/validator/processor/mod.rs lines 72-86 (the threads of a level).

    Simplification: get_results clones an entry and [has_validated] looks it up; both are [Get]. *)
From Coq Require Import List Permutation.
Import ListNotations.

Section Prog.
  Context {K V : Type}.
  Inductive prog (A : Type) : Type :=
  | Ret (a : A)
  | Get (k : K) (f : option V -> prog A)
  | Put (k : K) (v : V) (p : prog A)
  | Perm (X : Type) (l : list X) (f : list X -> prog A).
  Arguments Ret {A} a. Arguments Get {A} k f. Arguments Put {A} k v p. Arguments Perm {A X} l f.

  Fixpoint pbind {A B} (p : prog A) (f : A -> prog B) : prog B :=
    match p with
    | Ret a => f a
    | Get k g => Get k (fun r => pbind (g r) f)
    | Put k v p => Put k v (pbind p f)
    | Perm l g => Perm l (fun l => pbind (g l) f)
    end.

  Variable eqb : K -> K -> bool.
  Definition cache := K -> option V.
  Definition empty_cache : cache := fun _ => None.
  Definition update (c : cache) (k : K) (v : V) : cache := fun k' => if eqb k' k then Some v else c k'.

  (** one operation of one thread *)
  Inductive step {A} : cache -> prog A -> cache -> prog A -> Prop :=
  | step_get c k f : step c (Get k f) c (f (c k))
  | step_put c k v p : step c (Put k v p) (update c k v) p
  | step_perm c X (l l' : list X) f : Permutation l l' -> step c (Perm l f) c (f l').
  (** one operation of one of the threads *)
  Inductive pool_step {A} : cache -> list (prog A) -> cache -> list (prog A) -> Prop :=
  | pool_here c p c' p' ps : step c p c' p' -> pool_step c (p :: ps) c' (p' :: ps)
  | pool_later c p ps c' ps' : pool_step c ps c' ps' -> pool_step c (p :: ps) c' (p :: ps').
  Inductive pool_run {A} : cache -> list (prog A) -> cache -> list A -> Prop :=
  | run_done c rs : pool_run c (map Ret rs) c rs
  | run_step c ps c1 ps1 c2 rs : pool_step c ps c1 ps1 -> pool_run c1 ps1 c2 rs -> pool_run c ps c2 rs.

  (** a single thread that walks sets in the order in which they are listed *)
  Fixpoint run {A} (c : cache) (p : prog A) : A * cache :=
    match p with
    | Ret a => (a, c)
    | Get k f => run c (f (c k))
    | Put k v p => run (update c k v) p
    | Perm l f => run c (f l)
    end.
End Prog.
Arguments prog K V A : clear implicits.
Arguments Ret {K V A} a. Arguments Get {K V A} k f. Arguments Put {K V A} k v p. Arguments Perm {K V A X} l f.
Arguments cache K V : clear implicits.
