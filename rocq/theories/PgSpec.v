(** What it means to build and to merge property graphs, and what a type map asks. *)
From Coq Require Import List Bool Arith Sorted.
Import ListNotations.
From Verif Require Import PgsModel PgsSpec PgModel.

(** The node that a name stands for. *)
Definition named (g : pgraph) (x : name) (n : node) : Prop :=
  exists i, lookup (g_node_names g) x = Some i /\ lookup (g_nodes g) i = Some n.

(** A key of a record with one of its values. *)
Definition holds (r : record) (k : name) (v : value) : Prop := exists vs, In (k, vs) r /\ In v vs.

(** A graph as the program keeps it. *)
Record wf (g : pgraph) : Prop := mkWf {
  wf_nodes : NoDup (map fst (g_nodes g));
  wf_edges : NoDup (map fst (g_edges g));
  wf_node_names : NoDup (map fst (g_node_names g));
  wf_edge_names : NoDup (map fst (g_edge_names g));
  wf_node_ids : forall i n, lookup (g_nodes g) i = Some n -> i < g_node_counter g /\ good_node n;
  wf_edge_ids : forall i e, lookup (g_edges g) i = Some e ->
    i < g_edge_counter g /\ good_node (mkNode (e_labels e) (e_content e));
  wf_name : forall x i, lookup (g_node_names g) x = Some i -> exists n, lookup (g_nodes g) i = Some n;
  wf_once : forall x y i, lookup (g_node_names g) x = Some i -> lookup (g_node_names g) y = Some i -> x = y;
  wf_source : forall i e, lookup (g_edges g) i = Some e -> exists n, lookup (g_nodes g) (e_source e) = Some n;
  wf_target : forall i e, lookup (g_edges g) i = Some e -> exists n, lookup (g_nodes g) (e_target e) = Some n;
  wf_edge_name : forall x i, lookup (g_edge_names g) x = Some i -> i < g_edge_counter g
}.

(** Both ends of every edge have a name. *)
Definition all_named (g : pgraph) : Prop :=
  forall i e, lookup (g_edges g) i = Some e ->
    (exists x, lookup (g_node_names g) x = Some (e_source e)) /\
    (exists y, lookup (g_node_names g) y = Some (e_target e)).

(** A node with the labels and the properties of two. *)
Definition joined (a b c : node) : Prop :=
  (forall l, In l (n_labels c) <-> In l (n_labels a) \/ In l (n_labels b)) /\
  (forall k v, holds (n_content c) k v <-> holds (n_content a) k v \/ holds (n_content b) k v) /\
  (forall k, has (n_content c) k <-> has (n_content a) k \/ exists v, holds (n_content b) k v).

(** An edge of [other] as an edge of [g]: between the nodes of the same names. *)
Definition carried (other g : pgraph) (e e' : edge) : Prop :=
  e_labels e' = e_labels e /\ e_content e' = e_content e /\
  (exists x, lookup (g_node_names other) x = Some (e_source e) /\ lookup (g_node_names g) x = Some (e_source e')) /\
  (exists y, lookup (g_node_names other) y = Some (e_target e) /\ lookup (g_node_names g) y = Some (e_target e')).

Record merged (self other g : pgraph) : Prop := mkMerged {
  (* names: those of both, and those of [self] keep their nodes *)
  mg_keep : forall x i, lookup (g_node_names self) x = Some i -> lookup (g_node_names g) x = Some i;
  mg_only : forall x n, named g x n -> (exists m, named self x m) \/ (exists m, named other x m);
  (* nodes *)
  mg_both : forall x a b, named self x a -> named other x b -> exists c, named g x c /\ joined a b c;
  mg_self : forall x a, named self x a -> (forall b, ~ named other x b) -> named g x a;
  mg_other : forall x b, named other x b -> (forall a, ~ named self x a) -> named g x b;
  mg_unnamed : forall i n, lookup (g_nodes self) i = Some n ->
    (forall x, lookup (g_node_names self) x <> Some i) -> lookup (g_nodes g) i = Some n;
  (* edges *)
  mg_edges : exists es, g_edges g = g_edges self ++ es /\
    Forall2 (fun a b => carried other g (snd a) (snd b)) (g_edges other) es;
  mg_edge_named : forall x i e, lookup (g_edge_names other) x = Some i -> lookup (g_edges other) i = Some e ->
    exists j e', lookup (g_edge_names g) x = Some j /\ lookup (g_edges g) j = Some e' /\ carried other g e e';
  mg_edge_kept : forall x,
    (forall i e, lookup (g_edge_names other) x = Some i -> lookup (g_edges other) i = Some e -> False) ->
    lookup (g_edge_names g) x = lookup (g_edge_names self) x
}.

(** ** Statements *)

Definition declares (ss : list statement) (x : name) : Prop := exists ls ps, In (SNode x ls ps) ss.

(** Every edge comes after the nodes it is between. *)
Definition ordered (ss : list statement) : Prop :=
  forall before x s t ls ps after, ss = before ++ SEdge x s t ls ps :: after ->
    declares before s /\ declares before t.

Fixpoint node_ids (ss : list statement) : list name :=
  match ss with
  | [] => []
  | SNode x _ _ :: rest => x :: node_ids rest
  | SEdge _ _ _ _ _ :: rest => node_ids rest
  end.

(** The properties given by a list of keys with values: a key may be given twice. *)
Definition given (ps : list (name * list value)) (r : record) : Prop :=
  good_record r /\
  (forall k v, holds r k v <-> exists vs, In (k, vs) ps /\ In v vs) /\
  (forall k, has r k <-> In k (map fst ps)).

Definition node_of (ls : list name) (ps : list (name * list value)) (n : node) : Prop :=
  (forall l, In l (n_labels n) <-> In l ls) /\ given ps (n_content n).

Definition edge_of (g : pgraph) (s : statement) (e : edge) : Prop :=
  match s with
  | SNode _ _ _ => False
  | SEdge _ src tgt ls ps =>
      lookup (g_node_names g) src = Some (e_source e) /\ lookup (g_node_names g) tgt = Some (e_target e) /\
      (forall l, In l (e_labels e) <-> In l ls) /\ given ps (e_content e)
  end.

Fixpoint edge_statements (ss : list statement) : list statement :=
  match ss with
  | [] => []
  | SNode _ _ _ :: rest => edge_statements rest
  | SEdge x s t ls ps :: rest => SEdge x s t ls ps :: edge_statements rest
  end.

(** ** Type maps *)

(** What a name stands for, a node before an edge. *)
Definition item (g : pgraph) (x : name) (ne : node + edge) : Prop :=
  match ne with
  | inl n => named g x n
  | inr e => (forall n, ~ named g x n) /\
             exists i, lookup (g_edge_names g) x = Some i /\ lookup (g_edges g) i = Some e
  end.

(** An edge conforms when it and the nodes at its ends do. *)
Definition edge_defined (sc : schema) (t : name) (et : etype) : Prop :=
  exists i, lookup (edge_names sc) t = Some i /\ lookup (edge_types sc) i = Some et.

Definition edge_conforming (rx : regexes) (sc : schema) (g : pgraph) (et : etype) (e : edge) : Prop :=
  exists src tgt, lookup (g_nodes g) (e_source e) = Some src /\ lookup (g_nodes g) (e_target e) = Some tgt /\
    conforming rx sc (et_source et) src /\ conforming rx sc (et_target et) tgt /\
    conforming rx sc (et_edge et) (mkNode (e_labels e) (e_content e)).

(** The same node and type are not asked for twice in opposite ways. *)
Definition consistent (l : list association) : Prop :=
  forall a b, In a l -> In b l -> a_node a = a_node b -> a_type a = a_type b -> a_should a = a_should b.

(** Specifications for which conformance of nodes is decided right ([PgsProps]). *)
Definition clear_type (sc : schema) (s : spec) : Prop :=
  apart sc s /\ settled sc s /\ labelled sc s /\ ends sc s /\ linked sc s.

Definition clear (sc : schema) : Prop :=
  (forall t s, defined sc t s -> clear_type sc s) /\
  (forall t et, edge_defined sc t et ->
     clear_type sc (et_source et) /\ clear_type sc (et_edge et) /\ clear_type sc (et_target et)).

(** What is associated conforms. *)
Definition meets (rx : regexes) (sc : schema) (g : pgraph) (a : association) : Prop :=
  exists ne, item g (a_node a) ne /\
    match ne with
    | inl n => exists s, defined sc (a_type a) s /\ conforming rx sc s n
    | inr e => exists et, edge_defined sc (a_type a) et /\ edge_conforming rx sc g et e
    end.
