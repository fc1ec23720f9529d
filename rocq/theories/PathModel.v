(** SHACL property paths: rudof_rdf/src/rdf_core/neighs_rdf.rs 309-455 (objects_for_shacl_path, objects_for,
    subjects_for), rudof_rdf/src/rdf_core/shacl_path.rs 13-49.

    A graph is the list of its triples. Texts of IRIs, blank nodes and literals are numbers. A HashSet is a
    list without repetitions; the order in which a HashSet is walked is unknown, so every walk goes through
    [ord], which may be any permutation. The store itself never fails (the in-memory stores); the errors that
    remain are those of term_as_subject. The loops that compute closures have fuel. *)
From Coq Require Import List Bool NArith.
Import ListNotations.

Inductive term := TIri (n : N) | TBnode (n : N) | TLit (n : N).
Definition term_eqb (a b : term) : bool :=
  match a, b with
  | TIri n, TIri m | TBnode n, TBnode m | TLit n, TLit m => N.eqb n m
  | _, _ => false
  end.
Definition triple : Type := term * N * term.
Definition graph := list triple.

(** shacl_path.rs 13-28 *)
Inductive path :=
| PPred (p : N)
| PAlt (ps : list path)
| PSeq (ps : list path)
| PInv (q : path)
| PStar (q : path)
| PPlus (q : path)
| POpt (q : path).

Inductive res (A : Type) := Ok (a : A) | Err | Panic | OutOfFuel.
Arguments Ok {A} a. Arguments Err {A}. Arguments Panic {A}. Arguments OutOfFuel {A}.
Definition bind {A B} (r : res A) (f : A -> res B) : res B :=
  match r with Ok a => f a | Err => Err | Panic => Panic | OutOfFuel => OutOfFuel end.

(** HashSet: contains, insert, extend *)
Definition tmem (x : term) (l : list term) : bool := existsb (term_eqb x) l.
Definition tinsert (x : term) (l : list term) : list term := if tmem x l then l else x :: l.
Definition textend (l : list term) (xs : list term) : list term := fold_left (fun l x => tinsert x l) xs l.
Definition tset (xs : list term) : list term := textend [] xs.

(** rdf.rs 184-186: Subject::try_from(term), which only fails for literals *)
Definition term_as_subject (t : term) : option term := match t with TLit _ => None | _ => Some t end.

Section Path.
  Variable ord : list term -> list term.
  Variable g : graph.

  (** neighs_rdf.rs 410-427 *)
  Definition objects_for (s : term) (p : N) : res (list term) :=
    match term_as_subject s with
    | None => Err
    | Some s => Ok (tset (map (fun t => snd t) (filter (fun t => term_eqb (fst (fst t)) s && N.eqb (snd (fst t)) p) g)))
    end.
  (** lines 441-453 *)
  Definition subjects_for (p : N) (o : term) : res (list term) :=
    Ok (tset (map (fun t => fst (fst t)) (filter (fun t => term_eqb (snd t) o && N.eqb (snd (fst t)) p) g))).

  (** the loop over a set that extends another one: lines 343-347 *)
  Fixpoint gather (f : term -> res (list term)) (xs : list term) (all : list term) : res (list term) :=
    match xs with
    | [] => Ok all
    | x :: xs => bind (f x) (fun l => gather f xs (textend all l))
    end.

  (** lines 363-366: insert the new objects, and push those that were absent *)
  Fixpoint push_new (objs : list term) (all todo : list term) : list term * list term :=
    match objs with
    | [] => (all, todo)
    | o :: objs => if tmem o all then push_new objs all todo else push_new objs (o :: all) (o :: todo)
    end.
  (** lines 361-368 and 377-384; [todo] is a stack *)
  Fixpoint close (fuel : nat) (f : term -> res (list term)) (all todo : list term) : res (list term) :=
    match todo with
    | [] => Ok all
    | x :: todo =>
        match fuel with
        | O => OutOfFuel
        | S fuel => bind (f x) (fun objs => let (all, todo) := push_new (ord objs) all todo in close fuel f all todo)
        end
    end.

  (** lines 309-394 *)
  Fixpoint objects_for_path (fuel : nat) (p : path) (s : term) : res (list term) :=
    match p with
    | PPred i => objects_for s i
    | PAlt ps =>
        (fix alt (ps : list path) (all : list term) : res (list term) :=
           match ps with
           | [] => Ok all
           | q :: ps => bind (objects_for_path fuel q s) (fun l => alt ps (textend all l))
           end) ps []
    | PSeq ps =>
        (fix seq (ps : list path) (s : term) : res (list term) :=
           match ps with
           | [] => Ok [s]
           | q :: ps => bind (objects_for_path fuel q s) (fun l => gather (seq ps) (ord l) [])
           end) ps s
    | PInv q => match q with PPred i => subjects_for i s | _ => Panic end
    | PStar q => close fuel (objects_for_path fuel q) [s] [s]
    | PPlus q => bind (objects_for_path fuel q s) (fun l => close fuel (objects_for_path fuel q) l (ord l))
    | POpt q => bind (objects_for_path fuel q s) (fun l => Ok (textend [s] l))
    end.
End Path.
