(** What a node constraint means (C52): all its parts hold. *)
From Coq Require Import ZArith NArith List Bool.
Import ListNotations.
From Verif Require Import NumModel LitModel VsModel VsSpec NcModel.

(** node kinds *)
Definition has_kind (k : node_kind) (o : obj) : Prop :=
  match k with
  | KIri => exists s, o = OIri s
  | KBnode => exists s, o = OBnode s
  | KLiteral => exists l, o = OLit l
  | KNonLiteral => forall l, o <> OLit l
  end.

Section Parts.
  Context (L : lib).
  Variable resolve : str -> str -> option str.
  Variable dtype_of : str -> dtype.
  Variable regex_match : str -> str -> option bool.

  (** the constraint is satisfied: every part that is there is *)
  Definition satisfies (nc : node_constraint) (o : obj) : Prop :=
    (forall k, nc_kind nc = Some k -> has_kind k o) /\
    (forall i s, nc_datatype nc = Some i -> iri_denotes resolve i s -> datatype_ok L o (dtype_of s) = true) /\
    (forall fs f, nc_facets nc = Some fs -> In f fs -> facet_check L regex_match f o = true) /\
    (forall vs, nc_values nc = Some vs -> exists v v', In v vs /\ resolved resolve v v' /\ match_value L v' o = true).
End Parts.

(** a node constraint all of whose iri_denotes resolve *)
Definition well_named (resolve : str -> str -> option str) (nc : node_constraint) : Prop :=
  (forall i, nc_datatype nc = Some i -> exists s, iri_denotes resolve i s) /\
  (forall vs v, nc_values nc = Some vs -> In v vs -> exists v', resolved resolve v v').
(** no prefixed name in an exclusion; see C49 *)
Definition plain_values (nc : node_constraint) : Prop := forall vs, nc_values nc = Some vs -> Forall plain_exclusions vs.
