(* What the information about a node should be.  Of the model only the data types, the characters and how terms are written are used. *)
From Coq Require Import List String Bool NArith Permutation.
Import ListNotations.
From Verif Require Import NbModel NbSpec InfoModel.
Open Scope list_scope.

(* Walks from a node, along arcs or against them *)
Definition allowed (preds : list string) (p : string) : Prop := preds = [] \/ In p preds.
Inductive walk (ok : string -> Prop) (g : graph) : subject -> list (string * term) -> Prop :=
| Walk_one s p o : has g s p o -> ok p -> walk ok g s [(p, o)]
| Walk_more s p o steps : has g s p (TSub o) -> ok p -> walk ok g o steps -> walk ok g s ((p, TSub o) :: steps).
Inductive walk_back (g : graph) : subject -> list (string * term) -> Prop :=
| Back_one s p o : has g o p (TSub s) -> walk_back g s [(p, TSub o)]
| Back_more s p o steps : has g o p (TSub s) -> walk_back g o steps -> walk_back g s ((p, TSub o) :: steps).

(* Branches of a tree, from the root *)
Inductive branch : list info -> list (string * term) -> Prop :=
| Branch_here l p t rest : In (Info p t rest) l -> branch l [(p, t)]
| Branch_down l p t rest steps : In (Info p t rest) l -> branch rest steps -> branch l ((p, t) :: steps).
(* at each node, each arc appears once *)
Definition arc_of (i : info) : string * term := match i with Info p t _ => (p, t) end.
Inductive each_once : list info -> Prop :=
| Once l : NoDup (List.map arc_of l) -> (forall p t rest, In (Info p t rest) l -> each_once rest) -> each_once l.
(* at each node, the predicates are in order *)
Inductive in_order : list info -> Prop :=
| Order l : (forall a b x y, l = a ++ x :: y :: b -> String.leb (fst (arc_of x)) (fst (arc_of y)) = true) ->
    (forall p t rest, In (Info p t rest) l -> in_order rest) -> in_order l.

(* trees that differ only in the order of siblings *)
Inductive same_tree : list info -> list info -> Prop :=
| Same l k m : Forall2 same_info l k -> Permutation k m -> same_tree l m
with same_info : info -> info -> Prop :=
| Same_info p t rest rest' : same_tree rest rest' -> same_info (Info p t rest) (Info p t rest').

(* The lines of a tree: predicate, target, whether each of the nodes above is the last of its siblings *)
Fixpoint entries (above : list bool) (i : info) (last : bool) : list (string * term * list bool) :=
  match i with Info p t rest =>
    (p, t, above) :: (fix go (l : list info) := match l with [] => [] | x :: l => entries (above ++ [last]) x (match l with [] => true | _ => false end) ++ go l end) rest
  end.
Fixpoint all_entries (above : list bool) (l : list info) : list (string * term * list bool) :=
  match l with [] => [] | x :: l => entries above x (match l with [] => true | _ => false end) ++ all_entries above l end.

(* Texts that the tree does not confuse *)
Section texts.
Context {L : lib}.
Definition drawn (c : N) : Prop := c = 9472%N \/ c = 9474%N \/ c = 9500%N \/ c = 9492%N.
(* Unicode: White_Space *)
Definition spaces : list N :=
  [9; 10; 11; 12; 13; 32; 133; 160; 5760; 8192; 8193; 8194; 8195; 8196; 8197; 8198; 8199; 8200; 8201; 8202; 8232; 8233; 8239; 8287; 12288]%N.
Definition ends_well (x : text) : Prop := exists a l b, ~ In a spaces /\ ~ In b spaces /\ (x = [a] \/ x = a :: l ++ [b]).
Definition one_line (x : text) : Prop := ~ In 10%N x /\ ends_well x.
Definition plain (p : string) : Prop := one_line (show_pred p) /\ forall c, In c (show_pred p) -> ~ drawn c.
Definition plain_root (s : subject) : Prop := one_line (show_term (TSub s)) /\ ~ In 32%N (show_term (TSub s)) /\ forall c, In c (show_term (TSub s)) -> ~ drawn c.
Inductive plain_tree : list info -> Prop :=
| Plain l : (forall p t rest, In (Info p t rest) l -> plain p /\ one_line (show_term t) /\ plain_tree rest) -> plain_tree l.
(* an arc is read as it is: right predicate, right target; never too deep, and as deep as it is if no node above is the last of its siblings *)
Definition reads (e : string * term * list bool) (a : arc_read) : Prop :=
  match e with (p, t, above) =>
    r_pred a = show_pred p /\ r_target a = show_term t /\ r_depth a <= List.length above /\ (~ In true above -> r_depth a = List.length above)
  end.
End texts.
