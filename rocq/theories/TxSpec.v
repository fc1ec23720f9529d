(** What an application profile asks of a graph.  Of the models only the types are used, and the strings of TapSpec. *)
From Coq Require Import List Arith Bool.
Import ListNotations.
From Verif Require Import EngineModel TapModel TapSpec.

(** ** names *)
Section Names.
  Variable is_iri : str -> Prop.
  Variable prefixes : list (str * str).
  Variable base : option str.

  (** the namespace of a prefix is the first one given for it *)
  Definition namespace (p ns : str) : Prop := exists a b, prefixes = a ++ (p, ns) :: b /\ forall ns', ~ In (p, ns') a.
  Definition terminated (ns : str) : Prop := exists x c, ns = x ++ [c] /\ (c = 47 \/ c = 35).
  (** a local name is added to a namespace, after a slash if it does not end with a slash or a hash sign *)
  Definition joined (ns l i : str) : Prop := is_iri i /\ (terminated ns -> i = ns ++ l) /\ (~ terminated ns -> i = ns ++ 47 :: l).
  Inductive names : str -> str -> Prop :=
  | names_prefix p ns : namespace p ns -> names (p ++ [58]) ns
  | names_prefixed p ns l i : namespace p ns -> l <> [] -> ~ In 58 l -> joined ns l i -> names (p ++ 58 :: l) i
  | names_empty b l i : base = Some b -> ~ In 58 l -> joined b l i ->
      (~ exists ns, namespace [] ns /\ (l = [] \/ exists j, joined ns l j)) -> names (58 :: l) i
  | names_relative b s i : base = Some b -> ~ In 58 s -> joined b s i -> names s i.
End Names.

(** the words of a cell, separated by white space *)
Inductive tokens : str -> list str -> Prop :=
| tokens_none s : blank s -> tokens s []
| tokens_more a w rest l : blank a -> w <> [] -> Forall (fun c => ~ space c) w -> (rest = [] \/ exists c r, rest = c :: r /\ space c) ->
    tokens rest l -> tokens (a ++ w ++ rest) (w :: l).

Section Meaning.
  (** names, the numbers of predicates and shapes, the nodes of IRIs, and what is known of nodes *)
  Variable named : str -> str -> Prop.
  Variable delimiter : nat.
  Variable number : str -> nat.
  Variable node : str -> nat.
  Variable has_datatype : nat -> str -> Prop.
  Variable has_kind : nat -> basic -> Prop.
  Variable matches : nat -> str -> Prop.
  Variable g : rdf.
  Variable T : nat -> nat -> bool.

  (** the shapes that are named in a cell *)
  Definition refers (s w : str) : Prop := exists l, tokens s l /\ In w l /\ w <> [delimiter].
  Definition kind_among (v : nat) (t : nodetype) : Prop := match t with NBasic b => has_kind v b | NOr l => exists b, In b l /\ has_kind v b end.
  Definition value_ok (st : statement) (v : nat) : Prop :=
    (s_datatypes st = [] \/ exists d i, In d (s_datatypes st) /\ named d i /\ has_datatype v i) /\
    match s_constraint st with
    | None => True
    | Some (PickList l) => exists x i, In x l /\ named x i /\ v = node i
    | Some (Pattern s) => matches v s
    end /\
    match s_value_shape st with
    | None => True
    | Some s => (exists w, refers s w) -> exists w i, refers s w /\ named w i /\ T v (number i) = true
    end /\
    match s_nodetype st with None => True | Some t => kind_among v t end.
  (** the property has at least one value if it is mandatory, at most one unless it is repeatable, and all its values do *)
  Definition holds_at (n : nat) (st : statement) : Prop :=
    exists p vs, named (s_property st) p /\ NoDup vs /\ (forall v, In v vs <-> In (n, number p, v) g) /\
      (s_mandatory st = Some true -> vs <> []) /\ (s_repeatable st <> Some true -> length vs <= 1) /\ forall v, In v vs -> value_ok st v.
  Definition conforms (s : tapshape) (n : nat) : Prop := forall st, In st (t_statements s) -> holds_at n st.
  Definition labelled (s : tapshape) (l : nat) : Prop := exists id i, t_id s = Some id /\ named id i /\ l = number i.
End Meaning.

(** the node has the shape in the greatest typing in which nodes conform to their shapes *)
Definition has_tap_shape (named : str -> str -> Prop) (delimiter : nat) (number node : str -> nat) (has_datatype : nat -> str -> Prop)
    (has_kind : nat -> basic -> Prop) (matches : nat -> str -> Prop) (g : rdf) (tap : list tapshape) (n l : nat) : Prop :=
  exists T : nat -> nat -> bool, T n l = true /\
    forall m j, T m j = true -> exists s, In s tap /\ labelled named number s j /\ conforms named delimiter number node has_datatype has_kind matches g T s m.

(** what is known of nodes is what the conditions say *)
Definition conditions_right (eval : nat -> nat -> bool) (datatype_kind : str -> nat) (values_kind : list str -> nat) (node : str -> nat)
    (has_datatype : nat -> str -> Prop) : Prop :=
  (forall i v, eval (datatype_kind i) v = true <-> has_datatype v i) /\
  (forall l v, eval (values_kind l) v = true <-> exists i, In i l /\ v = node i).

(** statements say whether the property is mandatory, and have no node kind and no datatype or several *)
Definition supported_statement (st : statement) : Prop := s_mandatory st <> None /\ s_nodetype st = None /\ length (s_datatypes st) <> 1.
(** the statements of a shape are about different properties, and it extends no other *)
Definition supported (named : str -> str -> Prop) (s : tapshape) : Prop :=
  t_extends s = [] /\ (forall st, In st (t_statements s) -> supported_statement st) /\
  (forall i j st st' p, nth_error (t_statements s) i = Some st -> nth_error (t_statements s) j = Some st' ->
     named (s_property st) p -> named (s_property st') p -> i = j).
(** every name can be resolved, and there are no patterns *)
Definition statement_names (delimiter : nat) (st : statement) (x : str) : Prop :=
  x = s_property st \/ In x (s_datatypes st) \/ (exists l, s_constraint st = Some (PickList l) /\ In x l) \/
  (exists s, s_value_shape st = Some s /\ refers delimiter s x).
Definition convertible (named : str -> str -> Prop) (delimiter : nat) (s : tapshape) : Prop :=
  (exists id i, t_id s = Some id /\ named id i) /\
  (forall e, In e (t_extends s) -> exists i, named (fst e) i) /\
  (forall st, In st (t_statements s) -> (forall x, s_constraint st <> Some (Pattern x)) /\ forall x, statement_names delimiter st x -> exists i, named x i).
(** no two shapes have one name *)
Definition distinct_ids (named : str -> str -> Prop) (number : str -> nat) (tap : list tapshape) : Prop :=
  forall i j s s' l, nth_error tap i = Some s -> nth_error tap j = Some s' -> labelled named number s l -> labelled named number s' l -> i = j.
