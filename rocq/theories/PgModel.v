(** Property graphs: building them statement by statement, merging them, and checking
    them against a type map (pgschema/src/pg.rs, node.rs, type_map.rs,
    validation_result.rs, parser/pg_builder.rs, parser/map_builder.rs).

    As in [PgsModel], a [HashMap] is an association list; its order, which in Rust is
    arbitrary, is whatever order the list has.  Identifiers kept twice (the field [id] of
    nodes and edges, always the key they are stored under) are left out. *)
From Coq Require Import List Bool Arith.
Import ListNotations.
From Verif Require Import PgsModel.

(** pg.rs 10-17. *)
Record pgraph := mkPg {
  g_nodes : list (nat * node);
  g_edges : list (nat * edge);
  g_node_names : list (name * nat);
  g_edge_names : list (name * nat);
  g_node_counter : nat;
  g_edge_counter : nat
}.

(** pg.rs 27-36. *)
Definition pg_new : pgraph := mkPg [] [] [] [] 0 0.

(** pg.rs 162-168, node.rs 25-33. *)
Definition add_node (g : pgraph) (x : name) (ls : list name) (r : record) : pgraph :=
  let id := g_node_counter g in
  mkPg (put (g_nodes g) id (mkNode (labels_from ls) r)) (g_edges g)
       (put (g_node_names g) x id) (g_edge_names g) (S id) (g_edge_counter g).

(** pg.rs 170-174. *)
Definition get_node_id (g : pgraph) (x : name) : res nat :=
  match lookup (g_node_names g) x with Some i => Ok i | None => Err (MissingNodeLabel x) end.

(** The empty string, the default of [Option<String>]. *)
Definition no_name : name := 0.

(** pg.rs 177-199; the graph as it is left, also when an error is returned. *)
Definition add_edge (g : pgraph) (x : option name) (source : name) (ls : list name) (r : record)
    (target : name) : pgraph * res unit :=
  let id := g_edge_counter g in
  let names := put (g_edge_names g) (match x with Some x => x | None => no_name end) id in
  let g1 := mkPg (g_nodes g) (g_edges g) (g_node_names g) names (g_node_counter g) (S id) in
  match get_node_id g1 source with
  | Err e => (g1, Err e)
  | Ok s =>
      match get_node_id g1 target with
      | Err e => (g1, Err e)
      | Ok t =>
          (mkPg (g_nodes g1) (put (g_edges g1) id (mkEdge s t (labels_from ls) r))
                (g_node_names g1) (g_edge_names g1) (g_node_counter g1) (g_edge_counter g1), Ok tt)
      end
  end.

(** node.rs 50-60. *)
Definition node_merge (a b : node) : node :=
  mkNode (label_extend (n_labels a) (n_labels b))
    (fold_left (fun r kv => fold_left (fun r v => record_insert r (fst kv) v) (snd kv) r)
       (n_content b) (n_content a)).

(** pg.rs 56-77, one turn of the first loop of [merge].  [None]: indexing a map with a
    key that is not there, a panic. *)
Definition merge_node (other : pgraph) (st : pgraph * list (nat * nat)) (xi : name * nat)
    : option (pgraph * list (nat * nat)) :=
  let (self, ids) := st in
  let (x, oid) := xi in
  match lookup (g_nodes other) oid with
  | None => None
  | Some n =>
      match lookup (g_node_names self) x with
      | Some eid =>
          let nodes :=
            match lookup (g_nodes self) eid with
            | Some e => put (g_nodes self) eid (node_merge e n)
            | None => g_nodes self
            end in
          Some (mkPg nodes (g_edges self) (g_node_names self) (g_edge_names self)
                     (g_node_counter self) (g_edge_counter self), put ids oid eid)
      | None =>
          let nid := g_node_counter self in
          Some (mkPg (put (g_nodes self) nid n) (g_edges self) (put (g_node_names self) x nid)
                     (g_edge_names self) (S nid) (g_edge_counter self), put ids oid nid)
      end
  end.

Fixpoint fold_opt {A B} (f : A -> B -> option A) (l : list B) (a : A) : option A :=
  match l with
  | [] => Some a
  | x :: rest => match f a x with Some a' => fold_opt f rest a' | None => None end
  end.

(** pg.rs 105-109. *)
Definition rename_edges (names : list (name * nat)) (old new : nat) (acc : list (name * nat)) : list (name * nat) :=
  fold_left (fun acc xi => if snd xi =? old then put acc (fst xi) new else acc) names acc.

(** pg.rs 80-110, one turn of the second loop.  [None]: one of the two [expect]s. *)
Definition merge_edge (other : pgraph) (ids : list (nat * nat)) (self : pgraph) (ie : nat * edge)
    : option pgraph :=
  let (oid, e) := ie in
  match lookup ids (e_source e) with
  | None => None
  | Some s =>
      match lookup ids (e_target e) with
      | None => None
      | Some t =>
          let nid := g_edge_counter self in
          Some (mkPg (g_nodes self) (put (g_edges self) nid (mkEdge s t (e_labels e) (e_content e)))
                     (g_node_names self) (rename_edges (g_edge_names other) oid nid (g_edge_names self))
                     (g_node_counter self) (S nid))
      end
  end.

(** pg.rs 51-111. *)
Definition pg_merge (self other : pgraph) : option pgraph :=
  match fold_opt (merge_node other) (g_node_names other) (self, []) with
  | None => None
  | Some (self1, ids) => fold_opt (merge_edge other ids) (g_edges other) self1
  end.

(** pg.rs 121-149. *)
Definition get_node_by_label (g : pgraph) (x : name) : res node :=
  match lookup (g_node_names g) x with
  | None => Err (MissingNodeLabel x)
  | Some i => match lookup (g_nodes g) i with Some n => Ok n | None => Err (MissingNodeLabel x) end
  end.

Definition get_edge_by_label (g : pgraph) (x : name) : res edge :=
  match lookup (g_edge_names g) x with
  | None => Err (MissingEdgeLabel x)
  | Some i => match lookup (g_edges g) i with Some e => Ok e | None => Err (MissingEdgeLabel x) end
  end.

Definition get_node_edge_by_label (g : pgraph) (x : name) : res (node + edge) :=
  match get_node_by_label g x with
  | Ok n => Ok (inl n)
  | Err _ =>
      match get_edge_by_label g x with
      | Ok e => Ok (inr e)
      | Err _ => Err (MissingNodeEdgeLabel x)
      end
  end.

(** ** Statements (parser/pg_builder.rs; the values are already read) *)

Inductive statement :=
| SNode (x : name) (ls : list name) (ps : list (name * list value))
| SEdge (x : option name) (source target : name) (ls : list name) (ps : list (name * list value)).

(** pg_builder.rs 106-138. *)
Definition get_properties (ps : list (name * list value)) : record :=
  fold_left (fun r kv => insert_values r (fst kv) (values_extend [] (snd kv))) ps [].

(** pg_builder.rs 47-51, 65-78. *)
Definition get_statement (s : statement) (g : pgraph) : pgraph * res unit :=
  match s with
  | SNode x ls ps => (add_node g x ls (get_properties ps), Ok tt)
  | SEdge x source target ls ps => add_edge g x source ls (get_properties ps) target
  end.

(** pg_builder.rs 30-45; the graph is dropped when a statement fails. *)
Fixpoint get_statements (ss : list statement) (g : pgraph) : res pgraph :=
  match ss with
  | [] => Ok g
  | s :: rest => match get_statement s g with (g', Ok _) => get_statements rest g' | (_, Err e) => Err e end
  end.

Definition parse_pg (ss : list statement) : res pgraph := get_statements ss pg_new.

(** ** Type maps *)

(** type_map.rs 171-176; map_builder.rs 38-47 gives the flag. *)
Record association := mkAssoc { a_node : name; a_type : name; a_should : bool }.

(** result_association.rs 6-12. *)
Record rassociation := mkRassoc { r_node : name; r_type : name; r_conforms : bool; r_details : verdict }.

(** validation_result.rs 8-11, 20-34. *)
Record vresult := mkVresult { is_valid : bool; r_associations : list rassociation }.
Definition vresult_new : vresult := mkVresult true [].
Definition add_association (v : vresult) (a : rassociation) : vresult :=
  mkVresult (if r_conforms a then is_valid v else false) (r_associations v ++ [a]).

(** type_map.rs 49-73; [None] when the semantics of a type is still being computed. *)
Fixpoint validate_from (rx : regexes) (sc : schema) (fuel : nat) (g : pgraph) (l : list association)
    (acc : vresult) : run vresult :=
  match l with
  | [] => Some (Ok acc)
  | a :: rest =>
      match get_node_edge_by_label g (a_node a) with
      | Err _ => Some (Err (MissingNodeEdgeLabel (a_node a)))
      | Ok ne =>
          match (match ne with
                 | inl n => conforms_node rx sc fuel (a_type a) n
                 | inr e => conforms_edge rx sc fuel (a_type a) (lookup (g_nodes g)) e
                 end) with
          | None => None
          | Some d =>
              validate_from rx sc fuel g rest
                (add_association acc (mkRassoc (a_node a) (a_type a) (is_right d) d))
          end
      end
  end.

Definition map_validate (rx : regexes) (sc : schema) (fuel : nat) (g : pgraph) (l : list association) : run vresult :=
  validate_from rx sc fuel g l vresult_new.

(** type_map.rs 29-33. *)
Definition find_association (l : list association) (x t : name) : option association :=
  find (fun a => (a_node a =? x) && (a_type a =? t)) l.

(** type_map.rs 112-123. *)
Inductive status := FailedShouldConform (es : list error) | PassedShouldNot (ev : list evidence).
Record failed := mkFailed { f_node : name; f_type : name; f_status : status }.

(** type_map.rs 75-109. *)
Fixpoint compare_from (l : list association) (rs : list rassociation) (acc : list failed) : res (list failed) :=
  match rs with
  | [] => Ok acc
  | r :: rest =>
      match find_association l (r_node r) (r_type r) with
      | None => Err (MissingAssociation (r_node r) (r_type r))
      | Some a =>
          match a_should a, r_details r with
          | true, Right _ => compare_from l rest acc
          | true, Left es => compare_from l rest (acc ++ [mkFailed (r_node r) (r_type r) (FailedShouldConform es)])
          | false, Right ev => compare_from l rest (acc ++ [mkFailed (r_node r) (r_type r) (PassedShouldNot ev)])
          | false, Left _ => compare_from l rest acc
          end
      end
  end.

Definition compare_with_result (l : list association) (v : vresult) : res (list failed) :=
  compare_from l (r_associations v) [].
