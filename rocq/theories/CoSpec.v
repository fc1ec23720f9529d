(* What a comparison of two shapes should say.  Of the model of the comparator only the types of descriptions are used. *)
From Coq Require Import List String Ascii Bool.
Import ListNotations.
From Verif Require Import SjModel CoModel.
Open Scope string_scope.

Section Comparing.
Context {L : lib}.

(* A separator is put between a namespace and a local name unless there is one. *)
Definition separated (ns : string) : Prop := exists s, ns = s ++ "/" \/ ns = s ++ "#".

(* The IRI that a name stands for. *)
Definition stands_for (pm : list (string * string)) (i : iriref) (s : string) : Prop :=
  match i with
  | Iri t => s = t
  | Prefixed p "" => In (p, s) pm
  | Prefixed p l => exists ns, In (p, ns) pm /\ iri_ok s = true /\ (separated ns /\ s = ns ++ l \/ ~ separated ns /\ s = ns ++ "/" ++ l)
  end.

(* The prefix map of a schema; every prefix has one namespace. *)
Definition prefixes_of (sch : schema) : list (string * string) := match s_prefixes sch with Some pm => pm | None => [] end.
Definition prefixes_fine (sch : schema) : Prop := NoDup (map fst (prefixes_of sch)).

(* The first shape of the schema with the label.  The labels before it can be resolved. *)
Definition labelled (sch : schema) (l : string) (e : sexpr) : Prop :=
  exists before d after, s_shapes sch = Some (before ++ d :: after)%list /\ d_expr d = e /\
    (exists i, d_id d = LIri i /\ stands_for (prefixes_of sch) i l) /\
    forall d' i, In d' before -> d_id d' = LIri i -> exists s, stands_for (prefixes_of sch) i s /\ s <> l.

(* The triple constraints of a shape whose expression is one constraint or a group of constraints. *)
Definition constraint_of (te : texpr) (p : iriref) (ve : option sexpr) : Prop :=
  exists id neg inv mn mx acts anns, te = TTriple id neg inv p ve mn mx acts anns.
Definition constrains (e : sexpr) (p : iriref) (ve : option sexpr) : Prop :=
  exists c x te a n ex, e = SShape c x (Some te) a n ex /\
    (constraint_of te p ve \/ exists id l mn mx acts anns te', te = TEach id l mn mx acts anns /\ In te' l /\ constraint_of te' p ve).

(* What can be said about the values of a property. *)
Definition value_known (ignore : bool) (sch : schema) (ve : option sexpr) : Prop :=
  ignore = true \/
  match ve with
  | None => True
  | Some (SRef _) => True
  | Some (SNode nc) =>
      match n_datatype nc with
      | Some d => exists i, stands_for (prefixes_of sch) d i
      | None => n_kind nc <> None
      end
  | Some _ => False
  end.

(* A shape can be described: it is a shape whose expression is one constraint or a group of constraints, whose predicates can be
   resolved and about whose values something is known.  There is a prefix map if there is something to resolve. *)
Definition describable (ignore : bool) (sch : schema) (e : sexpr) : Prop :=
  exists c x te a n ex, e = SShape c x te a n ex /\
    match te with
    | None => True
    | Some te =>
        (exists p ve, constraint_of te p ve) \/
        exists id l mn mx acts anns, te = TEach id l mn mx acts anns /\ forall te', In te' l -> exists p ve, constraint_of te' p ve
    end /\
    forall p ve, constrains e p ve ->
      s_prefixes sch <> None /\ (exists i, stands_for (prefixes_of sch) p i) /\ value_known ignore sch ve.

(* The property is one of the shape. *)
Definition has_property (sch : schema) (e : sexpr) (p : string) : Prop :=
  exists i ve, constrains e i ve /\ stands_for (prefixes_of sch) i p.
(* Expressions that are groups. *)
Definition grouped (e : sexpr) : Prop :=
  exists c x te a n ex, e = SShape c x te a n ex /\ forall te', te = Some te' -> exists id l mn mx acts anns, te' = TEach id l mn mx acts anns.

(* The description says what the constraint on the value says. *)
Definition describes (ignore : bool) (sch : schema) (ve : option sexpr) (c : vconstraint) : Prop :=
  if ignore then c = VcAny
  else match c with
       | VcAny => ve = None
       | VcRef s => exists l, ve = Some (SRef l) /\ s = show_label l
       | VcDatatype i => exists nc d, ve = Some (SNode nc) /\ n_datatype nc = Some d /\ stands_for (prefixes_of sch) d i
       | VcKind s => exists nc k, ve = Some (SNode nc) /\ n_datatype nc = None /\ n_kind nc = Some k /\
           s = match k with NIri => "IRI" | NBNode => "BNode" | NNonLiteral => "NonLiteral" | NLiteral => "Literal" end
       end.
(* The last constraint of a group on a property. *)
Definition last_constraint (sch : schema) (e : sexpr) (p : string) (i : iriref) (ve : option sexpr) : Prop :=
  exists c x id l1 te l2 mn mx acts anns a n ex, e = SShape c x (Some (TEach id (l1 ++ te :: l2)%list mn mx acts anns)) a n ex /\
    constraint_of te i ve /\ stands_for (prefixes_of sch) i p /\
    forall te' i' ve', In te' l2 -> constraint_of te' i' ve' -> ~ stands_for (prefixes_of sch) i' p.
End Comparing.
