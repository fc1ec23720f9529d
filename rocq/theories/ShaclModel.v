(** Native validation of SHACL shapes with the shared cache of results.

    shacl/src/validator/engine/validate.rs lines 27-222; engine/value_nodes_ops.rs lines 15-60;
    validator/constraints/mod.rs lines 173-207, 248-361 (apply, apply_with_focus); constraints/core/: logical/and.rs 24-64,
    or.rs 25-56, not.rs 25-56, xone.rs 25-60; shape_based/node.rs 25-63, qualified_value_shape.rs 27-95;
    cardinality/min_count.rs 24-36, max_count.rs 24-32; other/has_value.rs, in_constraint.rs, closed.rs 22-70;
    property_pair/equals.rs 30-75, disjoint.rs 33-60, less_than.rs 33-90, less_than_or_equals.rs;
    string_based/unique_lang.rs 27-63; processor/mod.rs lines 56-98.

    Simplifications. Terms, paths and graphs are those of PathModel. [w_key] is what the conversion of an RDF
    literal to the internal literal (Object) yields, if anything; IRIs and blank nodes convert to themselves. The
    components that test each value node by itself (class, datatype, node kind, lengths, pattern, languages, value
    ranges; see C41, C42, C48) are [CTest k], with [w_test k v] when [v] violates it. A component's constants are
    already terms. Messages are left out, since the equality of results ignores them. The bounds of counts are the
    numbers after the conversion to usize. Every walk of a HashMap or HashSet is a [Perm]. Recursion is on fuel;
    running out of it stands for the endless recursion of a recursive shapes graph. *)
From Coq Require Import List Bool NArith ZArith.
Import ListNotations.
From Verif Require Import PathModel ProgModel.

Inductive tag :=
| TAnd | TOr | TNot | TXone | TNode | TQualifiedMin | TQualifiedMax | TMinCount | TMaxCount | THasValue | TIn
| TEquals | TDisjoint | TLess (or_equal : bool) | TUniqueLang | TClosed | TReifier | TTest (k : N).
Definition tag_eqb (a b : tag) : bool :=
  match a, b with
  | TQualifiedMin, TQualifiedMin | TQualifiedMax, TQualifiedMax => true
  | _, _ => false
  end.

(** report/result.rs lines 11-23 *)
Record result := mkResult {
  r_focus : term; r_tag : tag; r_severity : N; r_path : option path; r_value : option term; r_source : option term }.

Inductive comp :=
| CAnd (l : list nat) | COr (l : list nat) | CXone (l : list nat) | CNot (i : nat) | CNode (i : nat)
| CQualified (i : nat) (siblings : list nat) (qmin qmax : option Z)
| CMinCount (n : nat) | CMaxCount (n : nat) | CHasValue (v : term) | CIn (vs : list term)
| CEquals (p : N) | CDisjoint (p : N) | CLess (or_equal : bool) (p : N)
| CUniqueLang (b : bool) | CClosed (b : bool) | CTest (k : N).

(** ir/reifier_info.rs *)
Record reifier := mkReifier { rf_predicate : N; rf_shapes : list nat; rf_required : bool }.
(** ir/node_shape.rs 17-36, ir/property_shape.rs 19-39: [s_path] is [None] for node shapes *)
Record shape := mkShape {
  s_id : term; s_path : option path; s_comps : list comp; s_props : list nat; s_deactivated : bool; s_severity : N;
  s_allowed : list N; s_reifier : option reifier }.
Definition schema := list (nat * shape).
Fixpoint get_shape (sch : schema) (i : nat) : option shape :=
  match sch with
  | [] => None
  | (j, s) :: r => if Nat.eqb i j then Some s else get_shape r i
  end.

(** the data graph and the libraries *)
Record world := mkWorld {
  w_graph : graph;
  w_ord : list term -> list term;          (* order of walks inside path evaluation *)
  w_key : N -> option N;                   (* conversion of literals to internal literals *)
  w_cmp : term -> term -> option comparison; (* order of the internal terms *)
  w_lang : N -> option N;                  (* language tag of a literal *)
  w_test : N -> term -> bool;              (* the value node violates a component that tests single value nodes *)
  w_reifiers : triple -> list term }.      (* reifiers_of_triple *)

Definition ckey : Type := (term * nat)%type.
Definition ckey_eqb (a b : ckey) : bool := term_eqb (fst a) (fst b) && Nat.eqb (snd a) (snd b).
Definition prg := prog ckey (list result).
(** a computation that may fail *)
Definition M (A : Type) := prg (res A).
Definition rbind {A B} (p : M A) (f : A -> M B) : M B :=
  pbind p (fun r => match r with Ok a => f a | Err => Ret Err | Panic => Ret Panic | OutOfFuel => Ret OutOfFuel end).
Definition ret {A} (a : A) : M A := Ret (Ok a).
Definition lift {A} (r : res A) : M A := Ret r.
(** a loop that extends a vector of results *)
Fixpoint collect {X} (f : X -> M (list result)) (xs : list X) : M (list result) :=
  match xs with
  | [] => ret []
  | x :: xs => rbind (f x) (fun a => rbind (collect f xs) (fun b => ret (a ++ b)))
  end.

Definition no_results (l : list result) : bool := match l with [] => true | _ => false end.

Section Shacl.
  Variable W : world.
  Variable sch : schema.

  (** Rdf::term_as_object *)
  Definition object_of (t : term) : option term :=
    match t with
    | TLit n => match w_key W n with Some m => Some (TLit m) | None => None end
    | _ => Some t
    end.
  (** [objects_for_path] never needs more steps: C28_terminates_partial *)
  Definition path_nodes (p : path) (t : term) : res (list term) :=
    objects_for_path (w_ord W) (w_graph W) (2 * length (w_graph W) + 2) p t.
  (** triples_with_subject_predicate *)
  Definition objects_of (s : term) (p : N) : list term :=
    map (fun t => snd t) (filter (fun t => term_eqb (fst (fst t)) s && N.eqb (snd (fst t)) p) (w_graph W)).
  Definition triples_of (s : term) : list triple := filter (fun t => term_eqb (fst (fst t)) s) (w_graph W).

  (** value_nodes_ops.rs lines 30-60 *)
  Definition values (s : shape) (t : term) : res (list term) :=
    match s_path s with None => Ok [t] | Some p => path_nodes p t end.
  Definition vnodes : Type := list (term * list term).
  Fixpoint value_nodes (s : shape) (fs : list term) : res vnodes :=
    match fs with
    | [] => Ok []
    | f :: fs =>
        match values s f with
        | Ok vs => bind (value_nodes s fs) (fun r => Ok ((f, vs) :: r))
        | Err => value_nodes s fs
        | Panic => Panic
        | OutOfFuel => OutOfFuel
        end
    end.

  Definition mk (s : shape) (o : term) (t : tag) (v : option term) : result :=
    mkResult o t (s_severity s) (s_path s) v (Some (s_id s)).

  (** constraints/mod.rs 248-284 with FocusNodeIteration *)
  Definition apply_focus (s : shape) (t : tag) (ev : list term -> bool) (vns : vnodes) : M (list result) :=
    Perm vns (fun vns => collect (fun fv =>
      match object_of (fst fv) with
      | None => ret []
      | Some o => ret (if ev (snd fv) then [mk s o t None] else [])
      end) vns).
  (** constraints/mod.rs 248-319 with ValueNodeIteration *)
  Definition apply_values (s : shape) (t : tag) (ev : term -> term -> res bool) (vns : vnodes) : M (list result) :=
    Perm vns (fun vns => collect (fun fv => Perm (snd fv) (collect (fun v =>
      match object_of (fst fv) with
      | None => ret []
      | Some o =>
          match ev (fst fv) v with
          | Ok true => ret [mk s o t (object_of v)]
          | Ok false | Err => ret []
          | Panic => Ret Panic
          | OutOfFuel => Ret OutOfFuel
          end
      end))) vns).
  (** the loops of the components that validate other shapes *)
  Definition on_values (body : term -> term -> M (list result)) (vns : vnodes) : M (list result) :=
    Perm vns (collect (fun fv =>
      match object_of (fst fv) with
      | None => Ret Err
      | Some o => Perm (snd fv) (collect (body o))
      end)).

  Section Components.
    (** validation of a shape for one focus node *)
    Variable rec : nat -> list term -> M (list result).
    Variable s : shape.

    (** and.rs lines 31-49 *)
    Fixpoint and_loop (l : list nat) (v : term) : M bool :=
      match l with
      | [] => ret true
      | i :: l =>
          match get_shape sch i with
          | None => Ret Err
          | Some _ => pbind (rec i [v]) (fun r =>
              match r with
              | Ok rs => if no_results rs then and_loop l v else ret false
              | Err => ret false
              | Panic => Ret Panic
              | OutOfFuel => Ret OutOfFuel
              end)
          end
      end.
    (** or.rs lines 33-41 *)
    Fixpoint or_loop (l : list nat) (v : term) : M bool :=
      match l with
      | [] => ret false
      | i :: l =>
          match get_shape sch i with
          | None => Ret Err
          | Some _ => rbind (rec i [v]) (fun rs => if no_results rs then ret true else or_loop l v)
          end
      end.
    (** is one shape valid: not.rs lines 31-36, xone.rs 34-39, qualified_value_shape.rs 37-42, 47-50 *)
    Definition valid (i : nat) (v : term) : M bool :=
      match get_shape sch i with
      | None => Ret Err
      | Some _ => pbind (rec i [v]) (fun r =>
          match r with
          | Ok rs => ret (no_results rs)
          | Err => ret false
          | Panic => Ret Panic
          | OutOfFuel => Ret OutOfFuel
          end)
      end.
    (** xone.rs lines 32-42 *)
    Fixpoint xone_loop (l : list nat) (v : term) (n : nat) : M nat :=
      match l with
      | [] => ret n
      | i :: l => rbind (valid i v) (fun b => xone_loop l v (if b then S n else n))
      end.
    (** node.rs lines 33-45 *)
    Definition node_violates (i : nat) (v : term) : M bool :=
      match object_of v with
      | None => Ret Err
      | Some o =>
          Get (o, i) (fun r =>
            match r with
            | Some _ => Get (o, i) (fun r => ret (match r with Some rs => negb (no_results rs) | None => false end))
            | None => rbind (rec i [v]) (fun rs => ret (negb (no_results rs)))
            end)
      end.
    (** qualified_value_shape.rs lines 44-56 *)
    Fixpoint sibling_loop (l : list nat) (v : term) : M bool :=
      match l with
      | [] => ret true
      | i :: l => rbind (valid i v) (fun b => if b then ret false else sibling_loop l v)
      end.
    (** lines 35-61 *)
    Fixpoint qualified_loop (i : nat) (sib : list nat) (vs : list term) (n : Z) : M Z :=
      match vs with
      | [] => ret n
      | v :: vs =>
          rbind (rbind (valid i v) (fun b => if b then sibling_loop sib v else ret false))
                (fun b => qualified_loop i sib vs (if b then n + 1 else n)%Z)
      end.
    (** lines 63-91: insertion into a HashSet; results of one shape differ at most in the focus node and the component *)
    Definition rinsert (r : result) (l : list result) : list result :=
      if existsb (fun r' => term_eqb (r_focus r') (r_focus r) && tag_eqb (r_tag r') (r_tag r)) l then l else l ++ [r].
    Definition qualified_results (o : term) (qmin qmax : option Z) (n : Z) (l : list result) : list result :=
      let l := match qmin with Some m => if (n <? m)%Z then rinsert (mk s o TQualifiedMin None) l else l | None => l end in
      match qmax with Some m => if (m <? n)%Z then rinsert (mk s o TQualifiedMax None) l else l | None => l end.
    (** lines 31-92 *)
    Fixpoint qualified_all (i : nat) (sib : list nat) (qmin qmax : option Z) (vns : vnodes) (l : list result) : M (list result) :=
      match vns with
      | [] => ret l
      | (f, vs) :: vns =>
          match object_of f with
          | None => Ret Err
          | Some o => rbind (Perm vs (fun vs => qualified_loop i sib vs 0%Z))
                            (fun n => qualified_all i sib qmin qmax vns (qualified_results o qmin qmax n l))
          end
      end.

    (** disjoint.rs lines 33-51: the violation, with its unwraps *)
    Definition disjoint_ev (p : N) (f v : term) : res bool :=
      match term_as_subject f with
      | None => Panic
      | Some f => (fix loop (os : list term) : res bool :=
          match os with
          | [] => Ok false
          | w :: os =>
              match object_of v, object_of w with
              | Some a, Some b => if term_eqb a b then Ok true else loop os
              | _, _ => Panic
              end
          end) (objects_of f p)
      end.
    (** equals.rs lines 30-75 *)
    Definition equals_all (p : N) (vns : vnodes) : M (list result) :=
      Perm vns (collect (fun fv =>
        match term_as_subject (fst fv) with
        | None => ret []
        | Some f =>
            match object_of f with
            | None => Ret Err
            | Some o =>
                let prop_values := tset (objects_of f p) in
                Perm prop_values (fun pvs => Perm (snd fv) (fun vs => ret (
                  flat_map (fun v => if tmem v (snd fv) then [] else [mk s o TEquals (object_of v)]) pvs ++
                  flat_map (fun v => if tmem v prop_values then [] else [mk s o TEquals (object_of v)]) vs)))
            end
        end)).
    (** less_than.rs lines 44-66: a node is not below another one *)
    Definition not_less (or_equal : bool) (a b : term) : bool :=
      match w_cmp W a b with
      | None => true
      | Some Lt => false
      | Some Eq => negb or_equal
      | Some Gt => true
      end.
    (** less_than.rs lines 33-90, less_than_or_equals.rs *)
    Definition less_all (or_equal : bool) (p : N) (vns : vnodes) : M (list result) :=
      Perm vns (collect (fun fv =>
        match term_as_subject (fst fv) with
        | None => Ret Err
        | Some f =>
            match object_of f with
            | None => Ret Err
            | Some o => collect (fun w =>
                match object_of w with
                | None => Ret Err
                | Some n1 => Perm (snd fv) (collect (fun v =>
                    match object_of v with
                    | None => Ret Err
                    | Some n2 => ret (if not_less or_equal n2 n1 then [mk s o (TLess or_equal) (Some n2)] else [])
                    end))
                end) (objects_of f p)
            end
        end)).
    (** unique_lang.rs lines 40-60: the languages in the order of their first values, then those with two values *)
    Definition lang_of (v : term) : option N := match v with TLit n => w_lang W n | _ => None end.
    Fixpoint langs (vs : list term) : list N :=
      match vs with [] => [] | v :: vs => match lang_of v with Some n => n :: langs vs | None => langs vs end end.
    Definition count (n : N) (l : list N) : nat := length (filter (N.eqb n) l).
    Definition repeated (vs : list term) : list N := filter (fun n => 1 <? count n (langs vs)) (nodup N.eq_dec (langs vs)).
    Definition unique_lang_all (b : bool) (vns : vnodes) : M (list result) :=
      if b then
        Perm vns (collect (fun fv =>
          match object_of (fst fv) with
          | None => Ret Err
          | Some o => Perm (repeated (snd fv)) (fun ls => ret (map (fun _ => mk s o TUniqueLang None) ls))
          end))
      else ret [].
    (** closed.rs lines 33-70 *)
    Definition closed_all (b : bool) (vns : vnodes) : M (list result) :=
      if b then
        Perm vns (collect (fun fv =>
          match term_as_subject (fst fv) with
          | None => ret []
          | Some f =>
              match object_of f with
              | None => Ret Err
              | Some o => ret (flat_map (fun t =>
                  if existsb (N.eqb (snd (fst t))) (s_allowed s) then []
                  else [mkResult o TClosed (s_severity s) (Some (PPred (snd (fst t)))) (object_of (snd t)) (Some (s_id s))])
                  (triples_of f))
              end
          end))
      else ret [].

    Definition when (t : tag) (o v : term) (b : bool) : M (list result) :=
      ret (if b then [mk s o t (object_of v)] else []).
    (** constraints/mod.rs lines 173-207: the validator of each component *)
    Definition component (c : comp) (vns : vnodes) : M (list result) :=
      match c with
      | CAnd l => on_values (fun o v => rbind (and_loop l v) (fun b => when TAnd o v (negb b))) vns
      | COr l => on_values (fun o v => rbind (or_loop l v) (fun b => when TOr o v (negb b))) vns
      | CNot i => on_values (fun o v => rbind (valid i v) (fun b => when TNot o v b)) vns
      | CXone l => on_values (fun o v => rbind (xone_loop l v 0) (fun n => when TXone o v (negb (Nat.eqb n 1)))) vns
      | CNode i =>
          match get_shape sch i with
          | None => Ret Err
          | Some _ => on_values (fun o v => rbind (node_violates i v) (fun b => when TNode o v b)) vns
          end
      | CQualified i sib qmin qmax =>
          Perm vns (fun vns => rbind (qualified_all i sib qmin qmax vns []) (fun l => Perm l ret))
      | CMinCount n => if Nat.eqb n 0 then ret [] else apply_focus s TMinCount (fun vs => length vs <? n) vns
      | CMaxCount n => apply_focus s TMaxCount (fun vs => n <? length vs) vns
      | CHasValue v => apply_focus s THasValue (fun vs => negb (tmem v vs)) vns
      | CIn l => apply_values s TIn (fun _ v => Ok (negb (tmem v l))) vns
      | CEquals p => equals_all p vns
      | CDisjoint p => apply_values s TDisjoint (disjoint_ev p) vns
      | CLess b p => less_all b p vns
      | CUniqueLang b => unique_lang_all b vns
      | CClosed b => closed_all b vns
      | CTest k => apply_values s (TTest k) (fun _ v => Ok (w_test W k v)) vns
      end.

    (** validate.rs lines 166-222; [src] is the id of the source shape *)
    Definition reifiers_all (src : option term) (focus : list term) : M (list result) :=
      match s_reifier s with
      | None => ret []
      | Some rf =>
          Perm focus (collect (fun f => collect (fun i =>
            match term_as_subject f with
            | None => Ret Err
            | Some f => collect (fun o =>
                let subjects := w_reifiers W (f, rf_predicate rf, o) in
                match subjects with
                | [] => if rf_required rf
                        then ret [mkResult (s_id s) TReifier (s_severity s) (Some (PPred (rf_predicate rf))) None src]
                        else match get_shape sch i with None => Ret Err | Some _ => rec i [] end
                | _ => match get_shape sch i with None => Ret Err | Some _ => rec i (tset subjects) end
                end) (objects_of f (rf_predicate rf))
            end) (rf_shapes rf)))
      end.
  End Components.

  (** validate.rs lines 50-68: the results found in the cache, and the other focus nodes *)
  Fixpoint lookups (i : nat) (fs : list term) : prg (list result * list term) :=
    match fs with
    | [] => Ret ([], [])
    | f :: fs =>
        match object_of f with
        | None => pbind (lookups i fs) (fun cu => Ret (fst cu, f :: snd cu))
        | Some o => Get (o, i) (fun r =>
            match r with
            | Some l => pbind (lookups i fs) (fun cu => Ret (l ++ fst cu, snd cu))
            | None => pbind (lookups i fs) (fun cu => Ret (fst cu, f :: snd cu))
            end)
        end
    end.
  (** lines 141-157 *)
  Fixpoint objects (fs : list term) : list term :=
    match fs with
    | [] => []
    | f :: fs => match object_of f with Some o => o :: objects fs | None => objects fs end
    end.
  Fixpoint record (i : nat) (rs : list result) (os : list term) : prg unit :=
    match os with
    | [] => Ret tt
    | o :: os => Put (o, i) (filter (fun r => term_eqb (r_focus r) o) rs) (record i rs os)
    end.

  (** validate.rs lines 28-163, with the focus nodes given *)
  Fixpoint validate (fuel : nat) (src : option term) (i : nat) (focus : list term) : M (list result) :=
    match fuel with
    | O => Ret OutOfFuel
    | S fuel =>
        match get_shape sch i with
        | None => Ret Err
        | Some s =>
            if s_deactivated s then ret []
            else
              let rec := validate fuel (Some (s_id s)) in
              Perm focus (fun focus =>
              pbind (lookups i focus) (fun cu =>
                match snd cu with
                | [] => ret (fst cu)
                | _ =>
                    Perm (snd cu) (fun uncached =>
                    rbind (lift (value_nodes s uncached)) (fun vns =>
                    rbind (collect (fun c => component rec s c vns) (s_comps s)) (fun r1 =>
                    rbind (collect (fun p =>
                             match get_shape sch p with
                             | None => Ret Err
                             | Some _ => Perm vns (collect (fun fv => rec p (snd fv)))
                             end) (s_props s)) (fun r2 =>
                    rbind (reifiers_all rec s src uncached) (fun r3 =>
                    let new := r1 ++ r2 ++ r3 in
                    Perm (tset (objects uncached)) (fun os =>
                    pbind (record i new os) (fun _ => ret (fst cu ++ new))))))))
                end))
        end
    end.
End Shacl.

(** ** the processor: processor/mod.rs lines 56-98 *)
Section Processor.
  Variable W : world.
  Variable sch : schema.
  Variable targets : nat -> list term. (* focus nodes of the targets of a shape *)

  (** lines 82-84: a shape is its own source *)
  Definition thread (fuel : nat) (i : nat) : M (list result) :=
    match get_shape sch i with
    | None => Ret Err
    | Some s => validate W sch fuel (Some (s_id s)) i (targets i)
    end.
  (** lines 88-90 *)
  Fixpoint extend_results (rs : list (res (list result))) : res (list result) :=
    match rs with
    | [] => Ok []
    | r :: rs => bind r (fun a => bind (extend_results rs) (fun b => Ok (a ++ b)))
    end.
  (** lines 72-91 *)
  Inductive process (fuel : nat) : cache ckey (list result) -> list (list nat) -> res (list result) -> Prop :=
  | process_done c : process fuel c [] (Ok [])
  | process_level c level levels c' rs a b :
      pool_run ckey_eqb c (map (thread fuel) level) c' rs -> extend_results rs = Ok a ->
      process fuel c' levels b -> process fuel c (level :: levels) (bind b (fun b => Ok (a ++ b)))
  | process_fails c level levels c' rs r :
      pool_run ckey_eqb c (map (thread fuel) level) c' rs -> extend_results rs = r -> (forall a, r <> Ok a) ->
      process fuel c (level :: levels) r.
End Processor.
