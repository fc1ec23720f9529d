(** Result shape maps, and the validation of a shape map.

    shex_ast/src/shapemap/result_shape_map.rs lines 22-27 (ResultShapeMap), 81-185
    (add_result), 187-192 (get_info); shex_ast/src/shapemap/conformant_info.rs lines 24-41
    (merge); shex_validation/src/validator.rs lines 120-154 (validate_shapemap), 163-217
    (fill_pending), 219-225 (get_shape_label), 229-286 (result_map);
    shex_validation/src/engine.rs lines 196-203 (add_pending, pop_pending);
    shex_ast/src/ir/schema_ir.rs lines 155-165 (add_shape), 394-422 (find_ref), 440-447
    (new_index).

    Simplifications: nodes, labels, characters and shape indices are numbers. A hash map is
    the list of its entries. JSON values other than arrays are numbers, and so is the
    information of a non conformant status. [todo!()] is the outcome [None]. The conversion
    of nodes never fails, start actions succeed, and the reasons and errors of a pair are
    functions of the pair. *)
From Coq Require Import List Arith Bool.
Import ListNotations.
From Verif Require Import EngineModel.

Inductive json := JArray (l : list json) | JOther (n : nat).

Record conformant_info := mkInfo { reason : list nat; app_info : json }.

(** conformant_info.rs lines 24-41; [None] is [todo!()] *)
Definition newline : nat := 10.
Definition merge (a b : conformant_info) : option conformant_info :=
  match app_info a with
  | JArray values =>
      Some (mkInfo (reason a ++ newline :: reason b)
                   (JArray (values ++ match app_info b with JArray other => other | v => [v] end)))
  | JOther _ => None
  end.

(** validation_status.rs lines 10-16 *)
Inductive status :=
| Conformant (i : conformant_info)
| NonConformant (e : nat)
| Pending
| Inconsistent (i : conformant_info) (e : nat).

(** the match of add_result (lines 97-170) on the status in the cell and the new one *)
Definition combine_status (cell new : status) : option status :=
  match cell, new with
  | Conformant i, Conformant j => match merge i j with Some m => Some (Conformant m) | None => None end
  | Conformant _, NonConformant _ => None
  | Conformant _, Pending => Some cell
  | Conformant _, Inconsistent _ _ => None
  | NonConformant _, Conformant _ => None
  | NonConformant _, NonConformant _ => Some cell
  | NonConformant _, Pending => Some cell
  | NonConformant _, Inconsistent _ _ => None
  | Pending, Conformant i => Some (Conformant i)
  | Pending, NonConformant e => Some (NonConformant e)
  | Pending, Pending => Some cell
  | Pending, Inconsistent _ _ => None
  | Inconsistent _ _, _ => None
  end.

(** [HashMap::get] and the insertion or replacement of an entry *)
Fixpoint hget {A} (k : nat) (m : list (nat * A)) : option A :=
  match m with
  | [] => None
  | (k', a) :: r => if Nat.eqb k k' then Some a else hget k r
  end.
Fixpoint hset {A} (k : nat) (a : A) (m : list (nat * A)) : list (nat * A) :=
  match m with
  | [] => [(k, a)]
  | (k', a') :: r => if Nat.eqb k k' then (k, a) :: r else (k', a') :: hset k a r
  end.

Definition rmap := list (nat * list (nat * status)).

(** lines 81-185 *)
Definition add_result (m : rmap) (node label : nat) (st : status) : option rmap :=
  match hget node m with
  | Some map =>
      match hget label map with
      | Some cell =>
          match combine_status cell st with
          | Some cell' => Some (hset node (hset label cell' map) m)
          | None => None
          end
      | None => Some (hset node (hset label st map) m)
      end
  | None => Some (hset node [(label, st)] m)
  end.

(** lines 187-192 *)
Definition get_info (m : rmap) (node label : nat) : option status :=
  match hget node m with Some map => hget label map | None => None end.

(** a sequence of calls *)
Fixpoint add_results (m : rmap) (calls : list (nat * nat * status)) : option rmap :=
  match calls with
  | [] => Some m
  | (n, l, st) :: r => match add_result m n l st with Some m' => add_results m' r | None => None end
  end.

(** schema_ir.rs: the labels of the shapes *)
Record labels := mkLabels { l_idx : list (nat * nat); l_shapes : list (nat * option nat); l_next : nat }.
Definition no_labels : labels := mkLabels [] [] 0.
(** lines 155-165 *)
Definition add_shape (label : nat) (r : labels) : labels :=
  mkLabels (hset label (l_next r) (l_idx r)) (hset (l_next r) (Some label) (l_shapes r)) (S (l_next r)).
(** lines 440-447 *)
Definition new_index (r : labels) : labels :=
  mkLabels (l_idx r) (hset (l_next r) None (l_shapes r)) (S (l_next r)).
(** lines 394-422, on a label with its prefix resolved *)
Definition find_ref (r : labels) (label : nat) : option nat := hget label (l_idx r).
(** validator.rs lines 219-225; [None] is the error or the panic *)
Definition get_shape_label (r : labels) (idx : nat) : option nat :=
  match hget idx (l_shapes r) with Some o => o | None => None end.

(** [IndexSet::insert] *)
Definition set_insert (k : nat) (l : list nat) : list nat := if existsb (Nat.eqb k) l then l else l ++ [k].

(** validator.rs lines 163-217: the pending atoms, and the pairs whose label is unknown *)
Fixpoint fill_pending (r : labels) (pairs : list (nat * nat)) (pending : list nat) (failures : list (nat * nat))
    : list nat * list (nat * nat) :=
  match pairs with
  | [] => (pending, failures)
  | (n, l) :: rest =>
      match find_ref r l with
      | Some idx => fill_pending r rest (set_insert (key n idx) pending) failures
      | None => fill_pending r rest pending (failures ++ [(n, l)])
      end
  end.

Inductive answer := Panic | Error | Done (m : rmap).

Section Validate.
  Variable r : labels.
  (** the reasons and errors of a pair, and the error for an unknown label *)
  Variable reasons : nat -> conformant_info.
  Variable errors : nat -> nat.
  Variable not_found : nat -> nat -> nat.
  (** [validate_pending] on the pending atoms in the order in which they are popped: the
      verdicts in that order *)
  Variable run : list nat -> option (list (nat * bool)).

  (** lines 229-286: the calls for the checked atoms; the pending atoms are none *)
  Fixpoint checked_calls (checked : list (nat * bool)) : option (list (nat * nat * status)) :=
    match checked with
    | [] => Some []
    | (k, b) :: rest =>
        match get_shape_label r (label_of k), checked_calls rest with
        | Some label, Some calls =>
            Some ((node_of k, label, if b then Conformant (reasons k) else NonConformant (errors k)) :: calls)
        | _, _ => None
        end
    end.

  (** lines 120-154 *)
  Definition validate_shapemap (pairs : list (nat * nat)) : answer :=
    let (pending, failures) := fill_pending r pairs [] [] in
    match run (rev pending) with
    | None => Error
    | Some checked =>
        match checked_calls checked with
        | None => Error
        | Some calls =>
            match add_results [] calls with
            | None => Panic
            | Some m =>
                match add_results m (map (fun nl => (fst nl, snd nl, NonConformant (not_found (fst nl) (snd nl)))) failures) with
                | None => Panic
                | Some m' => Done m'
                end
            end
        end
    end.
End Validate.
