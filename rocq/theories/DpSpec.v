(* What default prefixes are for: names that a source does not declare. *)
From Coq Require Import List String Ascii Bool Arith.
Import ListNotations.
From Verif Require Import DpModel.
Open Scope list_scope.

(* The map of a session as a function *)
Definition env := text -> option text.
Definition set (e : env) (a : text) (i : option text) : env := fun b => if text_dec b a then i else e b.
Definition after_op {L : lib} (e : env) (o : op) : env :=
  match o with
  | Add a i => if iri_ok i then set e a (Some i) else e
  | Copy old new => match e old with Some i => set e new (Some i) | None => e end
  | Remove a => set e a None
  | Rename old new => match e old with Some i => set (set e old None) new (Some i) | None => e end
  end.
Definition env_of (m : option prefixes) : env := fun a => match m with Some p => find p a | None => None end.

(* Sources line by line: a declaration of a prefix begins its line, and other lines do not begin with the word of a declaration.
   key is the word as written, tail is what follows the IRI. *)
Inductive item := Decl (indent key gap alias gap2 between iri tail : text) | Line (l : text).
Definition all_white (l : text) : Prop := Forall (fun c => white c = true) l.
Definition on_line (l : text) : Prop := ~ In nl l.
Definition blank (l : text) : Prop := all_white l /\ on_line l.
Definition spelled (d : directive) (k : text) : Prop := match d with AtPrefix => k = chars "@prefix" | Prefix => List.map lower k = chars "prefix" end.
Definition alias_ok (a : text) : Prop := Forall (fun c => white c = false /\ c <> ":"%char) a.
Definition iri_text (i : text) : Prop := Forall (fun c => c <> ">"%char /\ white c = false) i.
Definition ok (d : directive) (x : item) : Prop :=
  match x with
  | Decl indent key gap a gap2 between i tail =>
      blank indent /\ spelled d key /\ blank gap /\ gap <> [] /\ alias_ok a /\ blank gap2 /\ blank between /\ iri_text i /\ on_line tail
  | Line l => on_line l /\ forall w k r, all_white w -> spelled d k -> l <> w ++ k ++ r
  end.
Definition show (x : item) : text := match x with Decl n k g a g2 b i t => n ++ k ++ g ++ a ++ g2 ++ ":"%char :: b ++ "<"%char :: i ++ ">"%char :: t | Line l => l end.
Fixpoint lines (l : list item) : text := match l with [] => [] | [x] => show x | x :: r => show x ++ nl :: lines r end.
Definition declares (x : item) (a i : text) : Prop := match x with Decl _ _ _ b _ _ j _ => a = b /\ i = j | Line _ => False end.
(* what an alias means after some lines: the last declaration *)
Inductive means : list item -> text -> option text -> Prop :=
| M_none a : means [] a None
| M_here l x a i : declares x a i -> means (l ++ [x]) a (Some i)
| M_more l x a o : (forall i, ~ declares x a i) -> means l a o -> means (l ++ [x]) a o.
Definition declared_in (l : list item) (a : text) : Prop := exists x i, In x l /\ declares x a i.

(* Text outside of long strings *)
Fixpoint outside (inside : bool) (l : text) : text :=
  match l with
  | a :: ((b :: c :: t) as r) => if (Ascii.eqb a """" && Ascii.eqb b """" && Ascii.eqb c """")%char then outside (negb inside) t else if inside then outside inside r else a :: outside inside r
  | _ => if inside then [] else l
  end.
Definition occurs (w l : text) : Prop := exists u v, l = u ++ w ++ v.
