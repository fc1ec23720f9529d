(** Compiling SHACL shapes from their syntax tree to the form that is validated.

    shacl/src/ir/schema.rs lines 172-258 (get_next_idx, register_shape, register_shapes, compile), ir/shape.rs lines
    120-135, ir/node_shape.rs lines 154-187, ir/property_shape.rs lines 169-203, ir/component.rs lines 64-164,
    ir/mod.rs lines 29-42 (convert_iri_ref, convert_value), ir/reifier_info.rs lines 30-61,
    ir/components/min_count.rs and max_count.rs (the casts), ast/mod.rs lines 25-48 (defined_properties_for),
    ast/node_shape.rs lines 97-134 and ast/property_shape.rs lines 190-214 (is_deactivated, closed_component,
    get_closed_info), types/closed_info.rs, types/target.rs; validator/constraints/core/value/class.rs lines 28-66.

    Simplifications. The map of the shapes of a syntax tree is the list of its entries in the order in which they are
    compiled, and a shape has the id under which it is stored. The constants of components are RDF terms, as in
    ShaclModel. Of names, descriptions, orders, groups and messages nothing is kept. SPARQL constraints are left out.
    A regular expression is a number, [regex] says which ones can be compiled. The components that test single value
    nodes are numbered by [code], as ShaclModel wants it. The component that remembers sh:deactivated has a validator
    that finds nothing (constraints/core/non_shape/deactivated.rs); [CClosed false] does the same and takes its place.
    Recursion is on fuel. *)
From Coq Require Import List Bool NArith ZArith.
Import ListNotations.
From Verif Require Import PathModel ShaclModel GraphModel LevelModel.
From Verif Require Import PathModel ShaclModel.

(** ** the syntax tree: ast/component.rs lines 12-62 *)
Inductive iri_ref := IriFull (n : N) | IriPrefixed (n : N).
Inductive value := VIri (r : iri_ref) | VLit (n : N).
(** a component that tests single value nodes; [XOther] are node kinds, lengths, languages and value ranges *)
Inductive test := XClass (c : term) | XDatatype (d : N) | XPattern (k : N) | XOther (k : N).
Inductive acomp :=
| AClass (c : term) | ADatatype (d : iri_ref) | APattern (k : N) | AOther (k : N)
| AMinCount (z : Z) | AMaxCount (z : Z) | AUniqueLang (b : bool)
| AEquals (p : iri_ref) | ADisjoint (p : iri_ref) | ALess (or_equal : bool) (p : iri_ref)
| AOr (l : list term) | AAnd (l : list term) | AXone (l : list term) | ANot (t : term) | ANode (t : term)
| AClosed (b : bool) (ignored : list N)
| AHasValue (v : value) | AIn (vs : list value)
| AQualified (t : term) (qmin qmax : option Z) (disjoint : option bool) (siblings : list term)
| ADeactivated (b : bool).
(** types/target.rs lines 9-22; [TgWrong] are the targets that are not well-formed *)
Inductive target :=
| TgNode (t : term) | TgClass (c : term) | TgSubjectsOf (p : N) | TgObjectsOf (p : N) | TgImplicit (t : term) | TgWrong (t : term).
(** ast/node_shape.rs, ast/property_shape.rs: [a_path] is [None] for node shapes *)
Record ashape := mkAshape {
  a_path : option path; a_comps : list acomp; a_props : list term; a_targets : list target; a_severity : N;
  a_reifier : option (bool * list term) }.
Definition ast := list (term * ashape).
(** ast/schema.rs: get_shape *)
Fixpoint find_shape (A : ast) (t : term) : option ashape :=
  match A with
  | [] => None
  | (u, a) :: A => if term_eqb t u then Some a else find_shape A t
  end.

(** ** numbers for tests *)
Definition enc (t : term) : N := (match t with TIri n => 3 * n | TBnode n => 3 * n + 1 | TLit n => 3 * n + 2 end)%N.
Definition dec (k : N) : term :=
  match (k mod 3)%N with 0%N => TIri (k / 3)%N | 1%N => TBnode (k / 3)%N | _ => TLit (k / 3)%N end.
Definition code (x : test) : N :=
  (match x with XClass c => 4 * enc c | XDatatype n => 4 * n + 1 | XPattern n => 4 * n + 2 | XOther n => 4 * n + 3 end)%N.
Definition decode (k : N) : test :=
  match (k mod 4)%N with 0%N => XClass (dec (k / 4)%N) | 1%N => XDatatype (k / 4)%N | 2%N => XPattern (k / 4)%N | _ => XOther (k / 4)%N end.

(** ** the state: ir/schema.rs lines 19-30; [s_shapes] are the shapes with their targets *)
Record state := mkState { s_labels : list (term * nat); s_shapes : list (nat * (shape * list target)); s_next : nat }.
Definition start_state : state := mkState [] [] 0.
Fixpoint label_of (l : list (term * nat)) (t : term) : option nat :=
  match l with
  | [] => None
  | (u, i) :: l => if term_eqb t u then Some i else label_of l t
  end.
Definition St (A : Type) := state -> res (A * state).
Definition sret {A} (a : A) : St A := fun st => Ok (a, st).
Definition sbind {A B} (m : St A) (f : A -> St B) : St B := fun st => bind (m st) (fun r => f (fst r) (snd r)).
Definition slift {A} (r : res A) : St A := fun st => bind r (fun a => Ok (a, st)).
Fixpoint smap {A B} (f : A -> St B) (l : list A) : St (list B) :=
  match l with
  | [] => sret []
  | x :: l => sbind (f x) (fun y => sbind (smap f l) (fun ys => sret (y :: ys)))
  end.

(** ir/mod.rs lines 29-42 *)
Definition convert_iri_ref (r : iri_ref) : res N := match r with IriFull n => Ok n | IriPrefixed _ => Err end.
Definition convert_value (v : value) : res term :=
  match v with VIri r => bind (convert_iri_ref r) (fun n => Ok (TIri n)) | VLit n => Ok (TLit n) end.
Fixpoint convert_values (vs : list value) : res (list term) :=
  match vs with
  | [] => Ok []
  | v :: vs => bind (convert_value v) (fun t => bind (convert_values vs) (fun ts => Ok (t :: ts)))
  end.
(** the cast [as usize] of an isize *)
Definition usize_of (z : Z) : nat := Z.to_nat (z mod 2 ^ 64).

Section Compile.
  Variable regex : N -> bool.
  Variable A : ast.

  (** component.rs lines 64-164; [rec] is [register_shape] *)
  Definition compile_comp (rec : term -> St nat) (c : acomp) : St comp :=
    match c with
    | AClass t => sret (CTest (code (XClass t)))
    | ADatatype r => sbind (slift (convert_iri_ref r)) (fun n => sret (CTest (code (XDatatype n))))
    | APattern k => if regex k then sret (CTest (code (XPattern k))) else slift Err
    | AOther k => sret (CTest (code (XOther k)))
    | AMinCount z => sret (CMinCount (usize_of z))
    | AMaxCount z => sret (CMaxCount (usize_of z))
    | AUniqueLang b => sret (CUniqueLang b)
    | AEquals r => sbind (slift (convert_iri_ref r)) (fun n => sret (CEquals n))
    | ADisjoint r => sbind (slift (convert_iri_ref r)) (fun n => sret (CDisjoint n))
    | ALess b r => sbind (slift (convert_iri_ref r)) (fun n => sret (CLess b n))
    | AOr l => sbind (smap rec l) (fun is => sret (COr is))
    | AAnd l => sbind (smap rec l) (fun is => sret (CAnd is))
    | AXone l => sbind (smap rec l) (fun is => sret (CXone is))
    | ANot t => sbind (rec t) (fun i => sret (CNot i))
    | ANode t => sbind (rec t) (fun i => sret (CNode i))
    | AClosed b _ => sret (CClosed b)
    | AHasValue v => sbind (slift (convert_value v)) (fun t => sret (CHasValue t))
    | AIn vs => sbind (slift (convert_values vs)) (fun ts => sret (CIn ts))
    | AQualified t qmin qmax _ sib => sbind (rec t) (fun i => sbind (smap rec sib) (fun is => sret (CQualified i is qmin qmax)))
    | ADeactivated _ => sret (CClosed false)
    end.

  (** ast/node_shape.rs lines 97-105 *)
  Definition is_deactivated (cs : list acomp) : bool := existsb (fun c => match c with ADeactivated b => b | _ => false end) cs.
  (** lines 107-118 *)
  Fixpoint closed_component (cs : list acomp) : bool * list N :=
    match cs with
    | [] => (false, [])
    | AClosed b l :: _ => (b, l)
    | _ :: cs => closed_component cs
    end.
  (** ast/mod.rs lines 25-48 *)
  Fixpoint defined_properties (ps : list term) : res (list N) :=
    match ps with
    | [] => Ok []
    | p :: ps =>
        match find_shape A p with
        | None => Err
        | Some a =>
            match a_path a with
            | None => Err
            | Some (PPred n) => bind (defined_properties ps) (fun l => Ok (n :: l))
            | Some _ => defined_properties ps
            end
        end
    end.
  (** ast/node_shape.rs lines 120-132 and types/closed_info.rs lines 39-51: the allowed properties *)
  Definition allowed_properties (a : ashape) : res (list N) :=
    let (b, ignored) := closed_component (a_comps a) in
    if b then bind (defined_properties (a_props a)) (fun l => Ok (l ++ ignored)) else Ok [].
  (** ir/reifier_info.rs lines 30-61 *)
  Definition reifier_info (rec : term -> St nat) (a : ashape) : St (option reifier) :=
    match a_path a, a_reifier a with
    | Some p, Some (required, ts) =>
        sbind (smap rec ts) (fun is =>
          match p with PPred n => sret (Some (mkReifier n is required)) | _ => slift Err end)
    | _, _ => sret None
    end.
  (** ir/node_shape.rs lines 154-187, ir/property_shape.rs lines 169-203 *)
  Definition compile_shape (rec : term -> St nat) (id : term) (a : ashape) : St (shape * list target) :=
    sbind (smap (compile_comp rec) (a_comps a)) (fun cs =>
    sbind (smap rec (a_props a)) (fun ps =>
    sbind (slift (allowed_properties a)) (fun allowed =>
    sbind (reifier_info rec a) (fun rf =>
    sret (mkShape id (a_path a) cs ps (is_deactivated (a_comps a)) (a_severity a) allowed rf, a_targets a))))).

  (** schema.rs lines 178-199; [given] is the shape, when it is known already *)
  Fixpoint register (fuel : nat) (given : option ashape) (id : term) : St nat :=
    fun st =>
      match (match given with Some a => Some a | None => find_shape A id end) with
      | None => Err
      | Some a =>
          match label_of (s_labels st) id with
          | Some i => Ok (i, st)
          | None =>
              match fuel with
              | O => OutOfFuel
              | S fuel =>
                  let i := s_next st in
                  bind (compile_shape (register fuel None) id a (mkState ((id, i) :: s_labels st) (s_shapes st) (S i)))
                       (fun r => Ok (i, mkState (s_labels (snd r)) ((i, fst r) :: s_shapes (snd r)) (s_next (snd r))))
              end
          end
      end.
  (** schema.rs lines 205-212 *)
  Fixpoint register_all (fuel : nat) (l : ast) (st : state) : res state :=
    match l with
    | [] => Ok st
    | (id, a) :: l => bind (register fuel (Some a) id st) (fun r => register_all fuel l (snd r))
    end.
End Compile.

(** ** what the dependency graph is built from *)
Definition level_comp (c : comp) : LevelModel.comp :=
  match c with
  | CAnd l => LevelModel.CAnd l
  | COr l => LevelModel.COr l
  | CXone l => LevelModel.CXone l
  | CNot i => LevelModel.CNot i
  | CNode i => LevelModel.CNode i
  | CQualified i sib _ _ => LevelModel.CQualified i sib
  | _ => LevelModel.CValue
  end.
Definition level_shape (s : shape * list target) : LevelModel.shape :=
  LevelModel.mkShape (map level_comp (s_comps (fst s))) (s_props (fst s))
    (match s_reifier (fst s) with Some rf => rf_shapes rf | None => [] end)
    (match snd s with [] => false | _ => true end).
Definition level_schema (st : state) : LevelModel.schema := map (fun e => (fst e, level_shape (snd e))) (s_shapes st).
Definition ir_schema (st : state) : schema := map (fun e => (fst e, fst (snd e))) (s_shapes st).
Definition ir_targets (st : state) (i : nat) : list target :=
  match find (fun e => Nat.eqb (fst e) i) (s_shapes st) with Some e => snd (snd e) | None => [] end.

(** schema.rs lines 205-250: also the graph of dependencies, or an error when it has a cycle *)
Definition compile (regex : N -> bool) (scc : GraphModel.graph posneg -> list (list nat)) (fuel : nat) (A : ast) : res (state * GraphModel.graph posneg) :=
  bind (register_all regex A fuel A start_state) (fun st =>
    match LevelModel.compile fuel (level_schema st) scc with
    | Some (Compiled g) => Ok (st, g)
    | Some _ => Err
    | None => OutOfFuel
    end).

(** ** sh:class: class.rs lines 39-56 *)
Section Class.
  Variable g : graph.
  Variable rdf_type sub_class_of : N.
  Definition objects_or_none (t : term) (p : N) : list term := match objects_for g t p with Ok l => l | _ => [] end.
  (** the value node violates the component *)
  Definition class_fn (c v : term) : bool :=
    match v with
    | TLit _ => true
    | _ => negb (existsb (fun k => term_eqb k c || tmem c (objects_or_none k sub_class_of)) (objects_or_none v rdf_type))
    end.
End Class.
