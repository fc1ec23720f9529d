(** The targets of shapes (SHACL section 2.1.3) and what a report should say (C70, C71). *)
From Coq Require Import List Bool NArith ZArith Relations.
Import ListNotations.
From Verif Require Import PathModel PathSpec ShaclModel ShaclSpec ShcModel ShcSpec TgtModel.

Definition is_target (V : vocabulary) (g : graph) (tg : target) (t : term) : Prop :=
  match tg with
  | TgNode n => t = n
  | TgClass c | TgImplicit c => instance (v_type V) (v_sub V) g t c
  | TgSubjectsOf p => exists o, In (t, p, o) g
  | TgObjectsOf p => exists s, In (s, p, t) g
  | TgWrong _ => False
  end.
Definition blank (t : term) : Prop := match t with TBnode _ => True | _ => False end.
(** written as SHACL asks for it; literals are spelled as they are after conversion *)
Definition proper_target (back : N -> N) (tg : target) : Prop :=
  match tg with
  | TgNode t => ~ blank t /\ forall n, t = TLit n -> back n = n
  | TgClass c | TgImplicit c => ~ literal c
  | TgWrong _ => False
  | _ => True
  end.
(** the instances of the class of a target are found in one step, or in two for implicit classes *)
Definition shallow_target (V : vocabulary) (g : graph) (tg : target) : Prop :=
  match tg with
  | TgClass c => forall t, instance (v_type V) (v_sub V) g t c -> In (t, v_type V, c) g
  | TgImplicit c => forall t, instance (v_type V) (v_sub V) g t c -> exists k, In (t, v_type V, k) g /\ (k = c \/ In (k, v_sub V, c) g)
  | _ => True
  end.

(** ** the shapes of a syntax tree *)
Definition ranked (A : ast) (rank : term -> nat) : Prop :=
  forall id a j, In (id, a) A -> In j (arefs a) -> rank j < rank id.
(** the pairs of a shape and a node that conformance of the targets may depend on *)
Inductive needed (V : vocabulary) (g : graph) (A : ast) : term -> term -> Prop :=
| needed_target id a tg t : In (id, a) A -> In tg (a_targets a) -> is_target V g tg t -> needed V g A id t
| needed_ref id a t j v : needed V g A id t -> In (id, a) A -> In j (arefs a) -> avalue_node g a t v -> needed V g A j v.
Definition compares (c : acomp) : Prop := match c with AEquals _ | ADisjoint _ | ALess _ _ => True | _ => False end.
(** what validation can cope with *)
Record within_reach (W : world) (V : vocabulary) (A : ast) : Prop := {
  r_graph : rdf_graph (w_graph W);
  r_order : any_order (w_ord W);
  r_keys : forall n, w_key W n <> None;
  r_inj : forall id t t', needed V (w_graph W) A id t -> needed V (w_graph W) A id t' -> object_of W t = object_of W t' -> t = t';
  (* inverses of predicates only, no property shapes inside property shapes, no reifiers, no closed property shapes *)
  r_path : forall id a p, In (id, a) A -> a_path a = Some p ->
    simple_inverses p /\ a_props a = [] /\ a_reifier a = None /\ forall ig, ~ In (AClosed true ig) (a_comps a);
  r_subject : forall id a c t, needed V (w_graph W) A id t -> In (id, a) A -> In c (a_comps a) -> compares c -> ~ literal t;
  r_leaves : forall id a p t x, needed V (w_graph W) A id t -> In (id, a) A -> a_path a = Some p -> leaves (w_graph W) p t x -> ~ literal x;
  r_disjoint : forall id a p t v w, needed V (w_graph W) A id t -> In (id, a) A -> In (ADisjoint (IriFull p)) (a_comps a) ->
    avalue_node (w_graph W) a t v -> In (t, p, w) (w_graph W) -> object_of W v = object_of W w -> v = w }.
