(** What SHACL says about conformance (SHACL sections 3.4 and 4): a node conforms to a shape when it satisfies the
    constraints of its components, which speak about the value nodes of the focus node. *)
From Coq Require Import List Bool NArith ZArith.
Import ListNotations.
From Verif Require Import PathModel PathSpec ProgModel ShaclModel.

(** the shapes that a shape mentions *)
Definition comp_refs (c : comp) : list nat :=
  match c with
  | CAnd l | COr l | CXone l => l
  | CNot i | CNode i => [i]
  | CQualified i sib _ _ => i :: sib
  | _ => []
  end.
Definition refs (s : shape) : list nat :=
  flat_map comp_refs (s_comps s) ++ s_props s ++ match s_reifier s with Some rf => rf_shapes rf | None => [] end.
(** a shapes graph without recursion: shapes only mention shapes of a lower rank *)
Definition layered (sch : schema) (rank : nat -> nat) : Prop :=
  forall i s, get_shape sch i = Some s -> forall j, In j (refs s) -> (exists s', get_shape sch j = Some s') /\ rank j < rank i.

(** value nodes *)
Definition value_node (g : graph) (s : shape) (t v : term) : Prop :=
  match s_path s with None => v = t | Some p => holds g p t v end.
(** the pairs of a shape and a node that conformance of the given ones may depend on *)
Inductive asked (g : graph) (sch : schema) (start : nat -> term -> Prop) : nat -> term -> Prop :=
| asked_start i t : start i t -> asked g sch start i t
| asked_ref i t s j v : asked g sch start i t -> get_shape sch i = Some s -> In j (refs s) -> value_node g s t v ->
    asked g sch start j v.

(** what validation can cope with *)
Record fine (W : world) (sch : schema) (rank : nat -> nat) (start : nat -> term -> Prop) : Prop := {
  fine_order : any_order (w_ord W);
  fine_rank : layered sch rank;
  (* literals can be converted, and literals validated against the same shape stay different *)
  fine_keys : forall n, w_key W n <> None;
  fine_inj : forall i t t', asked (w_graph W) sch start i t -> asked (w_graph W) sch start i t' ->
    object_of W t = object_of W t' -> t = t';
  fine_start : forall i t, start i t -> exists s, get_shape sch i = Some s;
  (* inverses of predicates only, no property shapes inside property shapes, no reifiers *)
  fine_path : forall i s p, get_shape sch i = Some s -> s_path s = Some p -> simple_inverses p /\ s_props s = [];
  fine_reifier : forall i s, get_shape sch i = Some s -> s_reifier s = None;
  (* focus nodes of lessThan and disjoint are not literals *)
  fine_subject : forall i s t, asked (w_graph W) sch start i t -> get_shape sch i = Some s ->
    (exists b p, In (CLess b p) (s_comps s)) \/ (exists p, In (CDisjoint p) (s_comps s)) -> ~ literal t }.

(** ** constraints *)
Definition at_least (m : Z) (P : term -> Prop) : Prop :=
  exists l, NoDup l /\ (forall v, In v l -> P v) /\ (m <= Z.of_nat (length l))%Z.
Definition at_most (m : Z) (P : term -> Prop) : Prop :=
  forall l, NoDup l -> (forall v, In v l -> P v) -> (Z.of_nat (length l) <= m)%Z.
Definition less (W : world) (or_equal : bool) (v w : term) : Prop :=
  exists a b, object_of W v = Some a /\ object_of W w = Some b /\
    (w_cmp W a b = Some Lt \/ (or_equal = true /\ w_cmp W a b = Some Eq)).

(** [C i v]: the node [v] conforms to the shape [i] *)
Definition satisfies (W : world) (C : nat -> term -> Prop) (s : shape) (c : comp) (t : term) : Prop :=
  let g := w_graph W in
  let N := value_node g s t in
  match c with
  | CAnd l => forall v, N v -> forall j, In j l -> C j v
  | COr l => forall v, N v -> exists j, In j l /\ C j v
  | CXone l => forall v, N v -> exists l1 j l2, l = l1 ++ j :: l2 /\ C j v /\ forall k, In k (l1 ++ l2) -> ~ C k v
  | CNot i => forall v, N v -> ~ C i v
  | CNode i => forall v, N v -> C i v
  | CQualified i sib qmin qmax =>
      let q v := N v /\ C i v /\ forall j, In j sib -> ~ C j v in
      (forall m, qmin = Some m -> at_least m q) /\ (forall m, qmax = Some m -> at_most m q)
  | CMinCount n => at_least (Z.of_nat n) N
  | CMaxCount n => at_most (Z.of_nat n) N
  | CHasValue v => N v
  | CIn l => forall v, N v -> In v l
  | CEquals p => forall v, N v <-> In (t, p, v) g
  | CDisjoint p => forall v, N v -> ~ In (t, p, v) g
  | CLess b p => forall v w, N v -> In (t, p, w) g -> less W b v w
  | CUniqueLang b => b = true -> forall v w n, N v -> N w -> lang_of W v = Some n -> lang_of W w = Some n -> v = w
  | CClosed b => b = true -> forall v p o, N v -> In (v, p, o) g -> In p (s_allowed s)
  | CTest k => forall v, N v -> w_test W k v = false
  end.
Definition conformance (W : world) (sch : schema) (C : nat -> term -> Prop) : Prop :=
  forall i s t, get_shape sch i = Some s ->
    (C i t <-> s_deactivated s = true \/
      (forall c, In c (s_comps s) -> satisfies W C s c t) /\
      (forall j v, In j (s_props s) -> value_node (w_graph W) s t v -> C j v)).

(** focus nodes for which the validator does what the definitions say *)
Record plain (W : world) (sch : schema) (start : nat -> term -> Prop) : Prop := {
  plain_graph : rdf_graph (w_graph W);
  (* no predicate of a path is followed from a literal *)
  plain_path : forall i s p t x, asked (w_graph W) sch start i t -> get_shape sch i = Some s -> s_path s = Some p ->
    leaves (w_graph W) p t x -> ~ literal x;
  (* equals is not used for a literal focus node *)
  plain_equals : forall i s p t, asked (w_graph W) sch start i t -> get_shape sch i = Some s -> In (CEquals p) (s_comps s) ->
    ~ literal t;
  (* literals compared by disjoint stay different *)
  plain_disjoint : forall i s p t v w, asked (w_graph W) sch start i t -> get_shape sch i = Some s -> In (CDisjoint p) (s_comps s) ->
    value_node (w_graph W) s t v -> In (t, p, w) (w_graph W) -> object_of W v = object_of W w -> v = w;
  (* closed is used in node shapes only *)
  plain_closed : forall i s, get_shape sch i = Some s -> In (CClosed true) (s_comps s) -> s_path s = None }.

(** ** executions *)
(** a request to validate the nodes [j_focus] against the shape [j_shape] *)
Record job := mkJob { j_source : option term; j_shape : nat; j_focus : list term }.
Definition proper (sch : schema) (start : nat -> term -> Prop) (j : job) : Prop :=
  NoDup (j_focus j) /\ (exists s, get_shape sch (j_shape j) = Some s) /\ forall t, In t (j_focus j) -> start (j_shape j) t.
Definition perform (W : world) (sch : schema) (rank : nat -> nat) (j : job) : M (list result) :=
  validate W sch (S (rank (j_shape j))) (j_source j) (j_shape j) (j_focus j).
(** the caches that concurrent validations can leave behind, one batch after the other *)
Inductive history (W : world) (sch : schema) (rank : nat -> nat) (start : nat -> term -> Prop) : cache ckey (list result) -> Prop :=
| history_empty : history W sch rank start empty_cache
| history_batch c jobs c' rs : history W sch rank start c -> Forall (proper sch start) jobs ->
    pool_run ckey_eqb c (map (perform W sch rank) jobs) c' rs -> history W sch rank start c'.

(** ** the logical components *)
(** the value node [v] violates the component *)
Definition violating (C : nat -> term -> Prop) (c : comp) (v : term) : Prop :=
  match c with
  | CAnd l => exists j, In j l /\ ~ C j v
  | COr l => forall j, In j l -> ~ C j v
  | CXone l => ~ exists l1 j l2, l = l1 ++ j :: l2 /\ C j v /\ forall k, In k (l1 ++ l2) -> ~ C k v
  | CNot i => C i v
  | CNode i => ~ C i v
  | _ => False
  end.
Definition logical (c : comp) : Prop := match c with CAnd _ | COr _ | CXone _ | CNot _ | CNode _ => True | _ => False end.
Definition tag_of (c : comp) : tag :=
  match c with CAnd _ => TAnd | COr _ => TOr | CXone _ => TXone | CNot _ => TNot | _ => TNode end.
