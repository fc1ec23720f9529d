(** Prefix maps as finite maps. *)
From Coq Require Import List Arith.
Import ListNotations.
From Verif Require Import PrefixModel.

(** a partial function from aliases to namespaces, defined on finitely many *)
Definition fmap := str -> option str.
Definition fempty : fmap := fun _ => None.

(** [n] is what an operation makes of [m] *)
Definition updated (m n : fmap) (o : op) : Prop :=
  match o with
  | Add a i => n a = Some i /\ forall b, b <> a -> n b = m b
  | Remove a => n a = None /\ forall b, b <> a -> n b = m b
  | Merge other => (forall a i, In (a, i) other -> n a = Some i) /\ (forall a, ~ In a (map fst other) -> n a = m a)
  end.
Inductive history : list op -> fmap -> Prop :=
| history_nil m : (forall a, m a = None) -> history [] m
| history_snoc ops o m n : history ops m -> updated m n o -> history (ops ++ [o]) n.

(** the maps given to [Merge] are maps: no alias twice *)
Definition proper (m : pmap) : Prop := NoDup (map fst m).
Definition proper_op (o : op) : Prop := match o with Merge other => proper other | _ => True end.

(** [iri] is the concatenation that Turtle, SPARQL and ShEx prescribe for [alias:local] *)
Definition denotes (m : pmap) (alias local iri : str) : Prop :=
  exists ns, In (alias, ns) m /\ iri = ns ++ local.

Definition ends_in_separator (ns : str) : Prop := exists p, ns = p ++ [slash] \/ ns = p ++ [hash_sign].
