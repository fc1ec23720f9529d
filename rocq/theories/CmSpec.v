(* What the conformance metrics should measure.  Of the model only the types are used. *)
From Coq Require Import List String Bool ZArith QArith Permutation.
Import ListNotations.
From Verif Require Import SjModel CoModel SqSpec GenModel GenSpec CmModel.
Open Scope string_scope.

Section Spec.
Context {F : nums}.

Definition has_type (ts : list mtriple) (s : mnode) (c : string) : Prop := In {| m_s := s; m_p := the_type; m_o := MNode (MIri c) |} ts.
Definition one_type (ts : list mtriple) : Prop := forall s c c', has_type ts s c -> has_type ts s c' -> c = c'.

Definition matches_value (v : uvalue) (o : mterm) : Prop :=
  match v with
  | UIri e => o = MNode (MIri e)
  | UBNode e => o = MNode (MBlank e)
  | ULit e None => exists d, o = MLit e d
  | ULit e (Some d) => o = MLit e d
  end.
Definition of_kind (k : ukind) (o : mterm) : Prop :=
  match o with
  | MNode (MIri _) => k = UKIri \/ k = UKBNodeOrIri \/ k = UKIriOrLiteral
  | MNode (MBlank _) => k = UKBNode \/ k = UKBNodeOrIri \/ k = UKBNodeOrLiteral
  | MLit _ _ => k = UKLiteral \/ k = UKBNodeOrLiteral \/ k = UKIriOrLiteral
  end.
Definition compares (r : f64 -> f64 -> Prop) (o : mterm) (v : uvalue) : Prop :=
  exists s d e dt a b, o = MLit s d /\ v = ULit e dt /\ parse s = Some a /\ parse e = Some b /\ r a b.
Definition satisfies (ts : list mtriple) (c : ucons) (o : mterm) : Prop :=
  match c with
  | CDatatype d => exists s, o = MLit s d
  | CShapeRef r => exists n, o = MNode n /\ has_type ts n r
  | CKind k => of_kind k o
  | CPattern p => exists s d m, o = MLit s d /\ regex p = Some m /\ m s = true
  | CMinIn v => compares (fun a b => f_le b a = true) o v
  | CMaxIn v => compares (fun a b => f_le a b = true) o v
  | CMinEx v => compares (fun a b => f_lt b a = true) o v
  | CMaxEx v => compares (fun a b => f_lt a b = true) o v
  | CMinLength n => exists s d, o = MLit s d /\ (n <= chars s)%Z
  | CMaxLength n => exists s d, o = MLit s d /\ (chars s <= n)%Z
  | CIn vs => exists v, In v vs /\ matches_value v o
  | CHasValue v => matches_value v o
  end.

(* At most so many triples have the subject and the property. *)
Definition at_most (ts : list mtriple) (s : mnode) (p : string) (n : Z) : Prop :=
  forall l, NoDup l -> (forall t, In t l -> In t ts /\ m_s t = s /\ m_p t = p) -> (Z.of_nat (List.length l) <= n)%Z.

(* A triple is valid if it gives a type that is a shape, or if the shape of its subject has the property, all constraints of which
   the object satisfies, and there are not too many values. *)
Definition valid (m : shapes) (ts : list mtriple) (t : mtriple) : Prop :=
  (m_p t = the_type /\ exists c sh, m_o t = MNode (MIri c) /\ In (c, sh) m) \/
  (m_p t <> the_type /\ exists c sh p, has_type ts (m_s t) c /\ In (c, sh) m /\ In p (u_props sh) /\ u_iri p = m_p t /\
     (forall n, u_max p = Some n -> at_most ts (m_s t) (m_p t) n) /\ forall k, In k (u_cons p) -> satisfies ts k (m_o t)).
(* No shape has a property twice. *)
Definition plain (m : shapes) : Prop :=
  NoDup (List.map fst m) /\ forall c sh, In (c, sh) m -> NoDup (List.map u_iri (u_props sh)).

(* Whether all that a schema states is kept. *)
Definition kept_facet {L : lib} (f : facet) : Prop := match f with FLength _ | FTotal _ | FFraction _ => False | _ => True end.
Definition kept {L : lib} (e : sexpr) : Prop :=
  match e with
  | SRef _ => True
  | SNode n => (forall vs, n_values n = Some vs -> vs = []) /\ forall fs f, n_facets n = Some fs -> In f fs -> kept_facet f
  | _ => False
  end.
Definition nothing_lost {L : lib} (ds : list decl) : Prop :=
  forall d closed extra te a n ex p e, In d ds -> d_expr d = SShape closed extra (Some te) a n ex -> In (p, Some e) (constraints te) -> kept e.
End Spec.

(* The triples of the generator as a graph. *)
Definition as_term (o : term) : mterm := match o with TmIri s => MNode (MIri s) | TmLit s d => MLit s d end.
Definition as_triple (t : triple) : mtriple := {| m_s := MIri (tr_s t); m_p := tr_p t; m_o := as_term (tr_o t) |}.
Definition graph_of (ts : list triple) (g : list mtriple) : Prop := NoDup g /\ forall t, In t g <-> exists t', In t' ts /\ t = as_triple t'.

(* Integers are read as numbers nearest to them: their order is kept, strictly so unless both are too great to be exact. *)
Definition exact (z : Z) : Prop := (Z.abs z <= 2 ^ 53)%Z.
Definition reads_integers {L : lib} {G : glib} {F : nums} : Prop :=
  exists real : Z -> f64, (forall s z, denotes s z \/ parse_i64 s = Some z -> parse s = Some (real z)) /\
    (forall a b, (a <= b)%Z -> f_le (real a) (real b) = true) /\
    (forall a b, (a < b)%Z -> exact a \/ exact b -> f_lt (real a) (real b) = true).
