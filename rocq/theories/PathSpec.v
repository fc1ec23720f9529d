(** The meaning of SHACL property paths (SHACL 2.3.1, SPARQL 1.1 section 9), as relations between nodes. *)
From Coq Require Import List Bool NArith Relations Permutation.
Import ListNotations.
From Verif Require Import PathModel.

Fixpoint holds (g : graph) (p : path) (s o : term) : Prop :=
  match p with
  | PPred i => In (s, i, o) g
  | PAlt ps => (fix some (ps : list path) := match ps with [] => False | q :: ps => holds g q s o \/ some ps end) ps
  | PSeq ps =>
      (fix all (ps : list path) (s : term) :=
         match ps with [] => s = o | q :: ps => exists m, holds g q s m /\ all ps m end) ps s
  | PInv q => holds g q o s
  | PStar q => clos_refl_trans_1n term (holds g q) s o
  | PPlus q => clos_trans_1n term (holds g q) s o
  | POpt q => s = o \/ holds g q s o
  end.

(** subjects of triples are not literals *)
Definition rdf_graph (g : graph) : Prop := forall s p o, In (s, p, o) g -> match s with TLit _ => False | _ => True end.

(** the only inverses are those of predicates *)
Fixpoint simple_inverses (p : path) : Prop :=
  match p with
  | PPred _ => True
  | PAlt ps | PSeq ps => (fix all (ps : list path) := match ps with [] => True | q :: ps => simple_inverses q /\ all ps end) ps
  | PInv q => match q with PPred _ => True | _ => False end
  | PStar q | PPlus q | POpt q => simple_inverses q
  end.

(** the path is followed forwards from the node [x] *)
Fixpoint leaves (g : graph) (p : path) (s x : term) : Prop :=
  match p with
  | PPred _ => s = x
  | PAlt ps => (fix some (ps : list path) := match ps with [] => False | q :: ps => leaves g q s x \/ some ps end) ps
  | PSeq ps =>
      (fix all (ps : list path) (s : term) :=
         match ps with [] => False | q :: ps => leaves g q s x \/ exists m, holds g q s m /\ all ps m end) ps s
  | PInv _ => False
  | PStar q => exists m, clos_refl_trans_1n term (holds g q) s m /\ leaves g q m x
  | PPlus q => exists m, clos_refl_trans_1n term (holds g q) s m /\ leaves g q m x
  | POpt q => leaves g q s x
  end.
Definition literal (t : term) : Prop := match t with TLit _ => True | _ => False end.

Definition any_order (ord : list term -> list term) : Prop := forall l, Permutation (ord l) l.
(** number of steps that is always enough *)
Definition enough (g : graph) : nat := 2 * length g + 2.
