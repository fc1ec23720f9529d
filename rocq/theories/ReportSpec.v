(** What reports are compared by, how a path is written in RDF (SHACL 2.3.1), and which reports can be written. *)
From Coq Require Import List Bool NArith Permutation.
Import ListNotations.
From Verif Require Import PathModel ReportModel.

Section Same.
  Variable same : term -> term -> Prop.
  Definition same_option {A} (R : A -> A -> Prop) (a b : option A) : Prop :=
    match a, b with Some x, Some y => R x y | None, None => True | _, _ => False end.
  (** the same result, apart from messages *)
  Definition alike (a b : result) : Prop :=
    same (r_focus a) (r_focus b) /\ same (r_comp a) (r_comp b) /\ r_sev a = r_sev b /\ r_path a = r_path b /\
    same_option same (r_value a) (r_value b) /\ same_option same (r_source a) (r_source b) /\
    same_option (Forall2 same) (r_details a) (r_details b).
  (** the same results, each as many times *)
  Definition same_results (l l' : list result) : Prop := exists m, Permutation m l' /\ Forall2 alike l m.
  (** no result twice *)
  Definition distinct (l : list result) : Prop := ForallOrdPairs (fun a b => ~ alike a b) l.
End Same.

(** ** RDF lists and paths *)
Section Encoding.
  Variable g : graph.
  Inductive rdf_list : term -> list term -> Prop :=
  | list_nil : rdf_list (TIri rdf_nil) []
  | list_cons n x r l : In (n, rdf_first, x) g -> In (n, rdf_rest, r) g -> rdf_list r l -> rdf_list n (x :: l).
  (** the term stands for the path *)
  Inductive encodes : term -> path -> Prop :=
  | en_pred i : encodes (TIri i) (PPred i)
  | en_seq b ts ps : rdf_list (TBnode b) ts -> Forall2 encodes ts ps -> encodes (TBnode b) (PSeq ps)
  | en_alt b l ts ps : In (TBnode b, sh_alternative, l) g -> rdf_list l ts -> Forall2 encodes ts ps -> encodes (TBnode b) (PAlt ps)
  | en_inv b t q : In (TBnode b, sh_inverse, t) g -> encodes t q -> encodes (TBnode b) (PInv q)
  | en_star b t q : In (TBnode b, sh_zero_or_more, t) g -> encodes t q -> encodes (TBnode b) (PStar q)
  | en_plus b t q : In (TBnode b, sh_one_or_more, t) g -> encodes t q -> encodes (TBnode b) (PPlus q)
  | en_opt b t q : In (TBnode b, sh_zero_or_one, t) g -> encodes t q -> encodes (TBnode b) (POpt q).

  (** the same, where every node says one thing: a list cell has one rdf:first and one rdf:rest, and a path
      node has one value of one of the path properties *)
  Definition only (s : term) (p : N) (o : term) : Prop := forall x, In (s, p, x) g <-> x = o.
  Definition none (s : term) (p : N) : Prop := forall x, ~ In (s, p, x) g.
  Definition says (s : term) (p : N) (o : term) : Prop :=
    only s p o /\ forall q, In q [rdf_first; sh_alternative; sh_zero_or_more; sh_one_or_more; sh_zero_or_one; sh_inverse] -> q <> p -> none s q.
  Inductive chain : term -> list term -> Prop :=
  | chain_nil : chain (TIri rdf_nil) []
  | chain_cons n x r l : n <> TIri rdf_nil -> term_as_subject n = Some n -> only n rdf_first x -> only n rdf_rest r -> chain r l -> chain n (x :: l).
  Inductive spells : term -> path -> Prop :=
  | sp_pred i : spells (TIri i) (PPred i)
  | sp_seq b ts ps : chain (TBnode b) ts -> Forall2 spells ts ps -> spells (TBnode b) (PSeq ps)
  | sp_alt b l ts ps : says (TBnode b) sh_alternative l -> chain l ts -> Forall2 spells ts ps -> spells (TBnode b) (PAlt ps)
  | sp_inv b t q : says (TBnode b) sh_inverse t -> spells t q -> spells (TBnode b) (PInv q)
  | sp_star b t q : says (TBnode b) sh_zero_or_more t -> spells t q -> spells (TBnode b) (PStar q)
  | sp_plus b t q : says (TBnode b) sh_one_or_more t -> spells t q -> spells (TBnode b) (PPlus q)
  | sp_opt b t q : says (TBnode b) sh_zero_or_one t -> spells t q -> spells (TBnode b) (POpt q).
End Encoding.

(** ** Reports that can be written *)
(** no sequence of no paths *)
Fixpoint no_empty_sequence (p : path) : Prop :=
  match p with
  | PPred _ => True
  | PAlt ps => (fix all (ps : list path) := match ps with [] => True | q :: ps => no_empty_sequence q /\ all ps end) ps
  | PSeq ps => ps <> [] /\ (fix all (ps : list path) := match ps with [] => True | q :: ps => no_empty_sequence q /\ all ps end) ps
  | PInv q | PStar q | PPlus q | POpt q => no_empty_sequence q
  end.
(** no severity of the vocabulary under the name of another one *)
Definition plain_severity (s : severity) : Prop :=
  match s with Generic i => ~ In i [sh_trace; sh_debug; sh_info; sh_warning; sh_violation] | _ => True end.
Section Writable.
  Variable same : term -> term -> Prop.
  Variables (to_term : term -> term) (to_object : term -> option term).
  (** the object survives conversion to a term of the store and back *)
  Definition survives (o : term) : Prop := exists o', to_object (to_term o) = Some o' /\ same o o'.
  Definition all_option {A} (P : A -> Prop) (o : option A) : Prop := match o with Some a => P a | None => True end.
  Definition writable (r : result) : Prop :=
    survives (r_focus r) /\ survives (r_comp r) /\ plain_severity (r_sev r) /\ all_option no_empty_sequence (r_path r) /\
    all_option survives (r_value r) /\ all_option survives (r_source r) /\ r_details r = None.
End Writable.
(** no blank node that the writer will make is already a subject *)
Definition ready (w : writer) : Prop := forall n p o, In (TBnode n, p, o) (w_triples w) -> (n <= w_counter w)%N.
