(* What the picture of a graph should be.  Of the model only the data types and the library are used. *)
From Coq Require Import List String Bool.
Import ListNotations.
From Verif Require Import VgModel.
Open Scope string_scope.

Section spec.
Context {L : lib}.
(* the boxes and the arrows of terms *)
Definition subject_term (s : subject) : term := match s with SIri i => TIri i | SBlank b => TBlank b end.
Inductive depicts_predicate : string -> vnode -> Prop :=
| D_reifies : depicts_predicate "http://www.w3.org/1999/02/22-rdf-syntax-ns#reifies" Reifies
| D_predicate p : p <> "http://www.w3.org/1999/02/22-rdf-syntax-ns#reifies" -> depicts_predicate p (VPred (qualify p) ("<" ++ p ++ ">")).
Inductive depicts_arrow : string -> vedge -> Prop :=
| D_reifies_arrow : depicts_arrow "http://www.w3.org/1999/02/22-rdf-syntax-ns#reifies" EReifies
| D_arrow p : p <> "http://www.w3.org/1999/02/22-rdf-syntax-ns#reifies" -> depicts_arrow p (EIri (qualify p) p).
Inductive depicts (g : graph) : term -> vnode -> Prop :=
| D_iri i : depicts g (TIri i) (VIri (qualify i) i)
| D_blank b : depicts g (TBlank b) (VBlank b)
| D_lit l c : convert l = Some c -> depicts g (TLit l) (VLit (show c))
| D_said s p o a b c : In {| t_s := s; t_p := p; t_o := o |} g ->
    depicts g (subject_term s) a -> depicts_predicate p b -> depicts g o c -> depicts g (TTriple s p o) (Asserted a b c)
| D_unsaid s p o a b c : ~ In {| t_s := s; t_p := p; t_o := o |} g ->
    depicts g (subject_term s) a -> depicts_predicate p b -> depicts g o c -> depicts g (TTriple s p o) (NonAsserted a b c).
(* the boxes of a picture: subjects, objects, and the parts of triple terms *)
Inductive boxed (g : graph) : list triple -> vnode -> Prop :=
| B_subject ts t n : In t ts -> depicts g (subject_term (t_s t)) n -> boxed g ts n
| B_object ts t n : In t ts -> depicts g (t_o t) n -> boxed g ts n
| B_inner_subject ts t s p o n : In t ts -> t_o t = TTriple s p o -> depicts g (subject_term s) n -> boxed g ts n
| B_inner_predicate ts t s p o n : In t ts -> t_o t = TTriple s p o -> depicts_predicate p n -> boxed g ts n
| B_inner_object ts t s p o n : In t ts -> t_o t = TTriple s p o -> depicts g o n -> boxed g ts n.
(* each use of a box *)
Inductive uses (g : graph) : list triple -> list (role * vnode) -> Prop :=
| U_nil : uses g [] []
| U_plain t ts a b c us : (forall s p o, t_o t <> TTriple s p o) ->
    depicts g (subject_term (t_s t)) a -> depicts_predicate (t_p t) b -> depicts g (t_o t) c -> uses g ts us ->
    uses g (t :: ts) ([(RSubject, a); (RPredicate, b); (RObject, c)] ++ us)
| U_triple t ts s p o a b c x y z us : t_o t = TTriple s p o ->
    depicts g (subject_term (t_s t)) a -> depicts_predicate (t_p t) b -> depicts g (t_o t) c ->
    depicts g (subject_term s) x -> depicts_predicate p y -> depicts g o z -> uses g ts us ->
    uses g (t :: ts) ([(RSubject, a); (RPredicate, b); (RObject, c); (InSubject, x); (InPredicate, y); (InObject, z)] ++ us).
Definition role_dec (a b : role) : {a = b} + {a <> b}. Proof. decide equality. Defined.
Definition use_dec (a b : role * vnode) : {a = b} + {a <> b}. Proof. decide equality; [apply vnode_dec|apply role_dec]. Defined.
Definition number (r : role) (u : usage) : nat :=
  match r with RSubject => as_subj u | RPredicate => as_pred u | RObject => as_obj u | InSubject => in_subj u | InPredicate => in_pred u | InObject => in_obj u end.

(* terms that can be drawn at all, and those that are drawn as they are *)
Definition drawable_plain (t : term) : Prop := match t with TLit l => convert l <> None | TTriple _ _ _ => False | _ => True end.
Definition drawable (t : term) : Prop :=
  match t with
  | TTriple _ _ (TLit l) => exists c, convert l = Some c /\ convert (back c) <> None
  | TTriple _ _ o => drawable_plain o
  | t => drawable_plain t
  end.
(* a literal that is the same after conversion *)
Definition exact (l : literal) : Prop := exists c, convert l = Some c /\ back c = l.
Definition exact_plain (t : term) : Prop := match t with TLit l => exact l | TTriple _ _ _ => False | _ => True end.
Definition exact_term (t : term) : Prop := match t with TTriple _ _ o => exact_plain o | TLit l => convert l <> None | _ => True end.
Definition exact_graph (g : graph) : Prop := forall t, In t g -> exact_term (t_o t).
(* literals that are shown alike are the same *)
Fixpoint literal_of (t : term) : option literal := match t with TLit l => Some l | TTriple _ _ o => literal_of o | _ => None end.
Definition told_apart (g : graph) : Prop := forall t u l k c d, In t g -> In u g ->
  literal_of (t_o t) = Some l -> literal_of (t_o u) = Some k -> convert l = Some c -> convert k = Some d -> show c = show d -> l = k.
End spec.
