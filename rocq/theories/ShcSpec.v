(** What SHACL says about shapes as they are written (C69). *)
From Coq Require Import List Bool NArith ZArith Relations.
Import ListNotations.
From Verif Require Import PathModel PathSpec ShaclModel ShaclSpec GraphSpec ShcModel.

(** ** conformance *)
Definition avalue_node (g : graph) (a : ashape) (t v : term) : Prop :=
  match a_path a with None => v = t | Some p => holds g p t v end.
(** SHACL instances (section 1.1): a type of the node is the class or one of its subclasses *)
Definition subclass (sub_class_of : N) (g : graph) : term -> term -> Prop := clos_refl_trans term (fun a b => In (a, sub_class_of, b) g).
Definition instance (rdf_type sub_class_of : N) (g : graph) (v c : term) : Prop :=
  exists k, In (v, rdf_type, k) g /\ subclass sub_class_of g k c.

(** [pass x v]: the value node passes the test, for tests other than sh:class *)
Record vocabulary := mkVoc { v_type : N; v_sub : N; v_pass : test -> term -> Prop }.
Definition passes (V : vocabulary) (g : graph) (x : test) (v : term) : Prop :=
  match x with XClass c => instance (v_type V) (v_sub V) g v c | _ => v_pass V x v end.
Definition term_of (v : value) (t : term) : Prop :=
  match v with VIri (IriFull n) => t = TIri n | VIri (IriPrefixed _) => False | VLit n => t = TLit n end.
(** the predicate that a property shape of the shape describes *)
Definition described (A : ast) (a : ashape) (p : N) : Prop :=
  exists id b, In id (a_props a) /\ In (id, b) A /\ a_path b = Some (PPred p).

(** [C id v]: the node [v] conforms to the shape named [id] *)
Definition asatisfies (W : world) (V : vocabulary) (A : ast) (C : term -> term -> Prop) (a : ashape) (c : acomp) (t : term) : Prop :=
  let g := w_graph W in
  let N := avalue_node g a t in
  match c with
  | AClass c => forall v, N v -> passes V g (XClass c) v
  | ADatatype (IriFull d) => forall v, N v -> passes V g (XDatatype d) v
  | ADatatype _ => False
  | APattern k => forall v, N v -> passes V g (XPattern k) v
  | AOther k => forall v, N v -> passes V g (XOther k) v
  | AMinCount z => at_least z N
  | AMaxCount z => at_most z N
  | AUniqueLang b => b = true -> forall v w n, N v -> N w -> lang_of W v = Some n -> lang_of W w = Some n -> v = w
  | AEquals (IriFull p) => forall v, N v <-> In (t, p, v) g
  | ADisjoint (IriFull p) => forall v, N v -> ~ In (t, p, v) g
  | ALess b (IriFull p) => forall v w, N v -> In (t, p, w) g -> less W b v w
  | AEquals _ | ADisjoint _ | ALess _ _ => False
  | AAnd l => forall v, N v -> forall j, In j l -> C j v
  | AOr l => forall v, N v -> exists j, In j l /\ C j v
  | AXone l => forall v, N v -> exists l1 j l2, l = l1 ++ j :: l2 /\ C j v /\ forall k, In k (l1 ++ l2) -> ~ C k v
  | ANot i => forall v, N v -> ~ C i v
  | ANode i => forall v, N v -> C i v
  | AClosed b ignored => b = true -> forall v p o, N v -> In (v, p, o) g -> In p ignored \/ described A a p
  | AHasValue w => exists v, term_of w v /\ N v
  | AIn ws => forall v, N v -> exists w, In w ws /\ term_of w v
  | AQualified i qmin qmax disjoint sib =>
      let q v := N v /\ C i v /\ (disjoint = Some true -> forall j, In j sib -> ~ C j v) in
      (forall m, qmin = Some m -> at_least m q) /\ (forall m, qmax = Some m -> at_most m q)
  | ADeactivated _ => True
  end.
Definition aconformance (W : world) (V : vocabulary) (A : ast) (C : term -> term -> Prop) : Prop :=
  forall id a t, In (id, a) A ->
    (C id t <-> In (ADeactivated true) (a_comps a) \/
      (forall c, In c (a_comps a) -> asatisfies W V A C a c t) /\
      (forall j v, In j (a_props a) -> avalue_node (w_graph W) a t v -> C j v)).

(** ** what the compiler takes *)
Definition acomp_refs (c : acomp) : list term :=
  match c with
  | AAnd l | AOr l | AXone l => l
  | ANot i | ANode i => [i]
  | AQualified i _ _ _ sib => i :: sib
  | _ => []
  end.
Definition reifier_refs (a : ashape) : list term :=
  match a_path a, a_reifier a with Some _, Some (_, l) => l | _, _ => [] end.
(** every shape that is needed to decide conformance *)
Definition arefs (a : ashape) : list term := flat_map acomp_refs (a_comps a) ++ a_props a ++ reifier_refs a.
Definition full (r : iri_ref) : Prop := exists n, r = IriFull n.
Definition full_value (v : value) : Prop := match v with VIri r => full r | VLit _ => True end.
Definition readable (regex : N -> bool) (c : acomp) : Prop :=
  match c with
  | ADatatype r | AEquals r | ADisjoint r | ALess _ r => full r
  | APattern k => regex k = true
  | AHasValue v => full_value v
  | AIn vs => forall v, In v vs -> full_value v
  | _ => True
  end.
(** the first of its components about closing, if any, closes the shape *)
Definition closes (a : ashape) : Prop :=
  exists l1 ig l2, a_comps a = l1 ++ AClosed true ig :: l2 /\ forall b l, ~ In (AClosed b l) l1.
Definition well_written (regex : N -> bool) (A : ast) : Prop :=
  forall id a, In (id, a) A ->
    (forall j, In j (arefs a) -> exists b, In (j, b) A) /\
    (forall c, In c (a_comps a) -> readable regex c) /\
    (closes a -> forall j b, In j (a_props a) -> In (j, b) A -> a_path b <> None) /\
    (forall p r, a_path a = Some p -> a_reifier a = Some r -> exists n, p = PPred n).
(** the references that the dependency graph has: without siblings and reifiers *)
Definition acomp_refers (c : acomp) (j : term) : Prop :=
  match c with
  | AAnd l | AOr l | AXone l => In j l
  | ANot i | ANode i | AQualified i _ _ _ _ => j = i
  | _ => False
  end.
Definition arefers (A : ast) (x y : term) : Prop :=
  exists a, In (x, a) A /\ ((exists c, In c (a_comps a) /\ acomp_refers c y) \/ In y (a_props a)).
Definition arecursive (A : ast) : Prop := exists x, clos_trans term (arefers A) x x.

(** counts are natural numbers, at most one sh:closed, siblings only where they are asked for *)
Definition tidy (A : ast) : Prop :=
  forall id a, In (id, a) A ->
    (forall z, In (AMinCount z) (a_comps a) \/ In (AMaxCount z) (a_comps a) -> (0 <= z < 2 ^ 63)%Z) /\
    (forall b l b' l', In (AClosed b l) (a_comps a) -> In (AClosed b' l') (a_comps a) -> b = b' /\ l = l') /\
    (forall i qmin qmax d sib, In (AQualified i qmin qmax d sib) (a_comps a) -> d <> Some true -> sib = []).
Definition distinct (A : ast) : Prop := NoDup (map fst A).
(** subclasses of subclasses are also listed as subclasses *)
Definition flat_classes (sub_class_of : N) (g : graph) : Prop :=
  forall a b c, In (a, sub_class_of, b) g -> In (b, sub_class_of, c) g -> In (a, sub_class_of, c) g.
(** the tests of the validator: sh:class as it is programmed, the others exact *)
Definition tests_fit (W : world) (V : vocabulary) : Prop :=
  forall k v, match decode k with
              | XClass c => w_test W k v = class_fn (w_graph W) (v_type V) (v_sub V) c v
              | x => w_test W k v = false <-> v_pass V x v
              end.
