(** What SHACL shapes and the ShEx shapes made of them ask for.  Of the model of the conversion nothing is used. *)
From Coq Require Import List Bool NArith Relations.
Import ListNotations.
From Verif Require Import PathModel PathSpec ShaclModel ShaclSpec.
From Verif Require ShcModel.

(** ** schemas for which there is a conversion *)
Definition plain_component (c : comp) : Prop :=
  match c with
  | COr _ => True
  | CTest k => match ShcModel.decode k with ShcModel.XClass (TIri _) | ShcModel.XDatatype _ => True | _ => False end
  | _ => False
  end.
Definition plain_target (t : ShcModel.target) : Prop :=
  match t with ShcModel.TgClass c => exists i, c = TIri i | ShcModel.TgWrong _ => False | _ => True end.
Definition convertible (add : bool) (sch : schema) (targets : nat -> list ShcModel.target) : Prop :=
  forall i s, In (i, s) sch -> s_path s = None ->
    ~ literal (s_id s) /\
    (forall j, In j (s_props s) -> exists ps p, get_shape sch j = Some ps /\ s_path ps = Some (PPred p) /\ forall c, In c (s_comps ps) -> plain_component c) /\
    (add = true -> forall t, In t (targets i) -> plain_target t).

Section Meaning.
  Variable add : bool.
  Variable rdf_type : N.
  Variable W : world.
  Variable sch : schema.
  Variable targets : nat -> list ShcModel.target.
  Notation g := (w_graph W).

  (** the node has one value for the property, and that one does *)
  Definition one_value (n : term) (p : N) (P : term -> Prop) : Prop := exists v, (forall w, In (n, p, w) g <-> w = v) /\ P v.
  (** what is left of the components of a property shape *)
  Definition first_holds (cs : list comp) (v : term) : Prop :=
    match cs with
    | CTest k :: _ =>
        match ShcModel.decode k with
        | ShcModel.XClass c => one_value v rdf_type (fun w => w = c)
        | _ => w_test W k v = false
        end
    | _ => True
    end.
  (** what the ShEx shape asks of a node *)
  Definition asks (i : nat) (s : shape) (n : term) : Prop :=
    (forall j ps p, In j (s_props s) -> get_shape sch j = Some ps -> s_path ps = Some (PPred p) -> one_value n p (first_holds (s_comps ps))) /\
    (add = true -> one_value n rdf_type (fun c => In (ShcModel.TgClass c) (targets i))).

  (** the properties of a node shape are different, and differ from rdf:type if the class is added *)
  Definition properties (s : shape) : list (option path) :=
    map (fun j => match get_shape sch j with Some ps => s_path ps | None => None end) (s_props s) ++ (if add then [Some (PPred rdf_type)] else []).
  Definition separate : Prop := forall i s, In (i, s) sch -> s_path s = None -> NoDup (properties s).
  (** shapes have indices and names of their own *)
  Definition well_named : Prop :=
    NoDup (map fst sch) /\ forall i j s s', In (i, s) sch -> In (j, s') sch -> s_id s = s_id s' -> i = j.

  (** a node shape with nothing but property shapes, and those with one test at most *)
  Definition bare (s : shape) : Prop :=
    s_comps s = [] /\
    forall j ps, In j (s_props s) -> get_shape sch j = Some ps -> s_props ps = [] /\ (s_comps ps = [] \/ exists k, s_comps ps = [CTest k]).
  Definition active (s : shape) : Prop :=
    s_deactivated s = false /\ forall j ps, In j (s_props s) -> get_shape sch j = Some ps -> s_deactivated ps = false.
  (** the node has just one value for every property of the shape *)
  Definition has_single_values (s : shape) (n : term) : Prop :=
    forall j ps p, In j (s_props s) -> get_shape sch j = Some ps -> s_path ps = Some (PPred p) -> one_value n p (fun _ => True).
  (** nodes have one type at most, and there are no subclasses *)
  Definition flat_types (sub_class_of : N) : Prop :=
    (forall n c c', In (n, rdf_type, c) g -> In (n, rdf_type, c') g -> c = c') /\ forall c c', ~ In (c, sub_class_of, c') g.
  (** the test for a class accepts the nodes that have it for a type, and none but those that have the class or a subclass of it
      for a type: so does the test of SHACL, and so does the one of the validator, which follows rdfs:subClassOf just once (C69) *)
  Definition tests_classes (sub_class_of : N) : Prop :=
    forall c v, (In (v, rdf_type, c) g -> w_test W (ShcModel.code (ShcModel.XClass c)) v = false) /\
      (w_test W (ShcModel.code (ShcModel.XClass c)) v = false -> exists k, In (v, rdf_type, k) g /\ clos_refl_trans_1n term (fun a b => In (a, sub_class_of, b) g) k c).
End Meaning.

(** ** the two sides speak of the same graph *)
Section Same.
  Variable node : term -> nat.
  Variable label : term -> nat.
  Variable number : N -> nat.
  Variable datatype_kind : N -> nat.
  Variable values_kind : list N -> nat.
  Variable eval : nat -> nat -> bool.
  Variable W : world.
  Definition translated (g : graph) : list (nat * nat * nat) := map (fun t => (node (fst (fst t)), number (snd (fst t)), node (snd t))) g.
  Record same_world : Prop := {
    sw_node : forall t t', node t = node t' -> t = t';
    sw_label : forall t t', label t = label t' -> t = t';
    sw_number : forall p q, number p = number q -> p = q;
    (* tests for datatypes agree, and lists of IRIs have those members *)
    sw_datatype : forall d v, eval (datatype_kind d) (node v) = true <-> w_test W (ShcModel.code (ShcModel.XDatatype d)) v = false;
    sw_values : forall l v, eval (values_kind l) (node v) = true <-> exists c, In c l /\ v = TIri c }.
End Same.
