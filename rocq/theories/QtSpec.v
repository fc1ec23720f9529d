(* CSV as RFC 4180 reads it (empty lines are passed over, as the crate csv does), and what a table should tell. *)
From Coq Require Import List String Ascii Bool Arith.
Import ListNotations.
From Verif Require Import QtModel.
Open Scope list_scope.

(* the namespace of a prefix *)
Fixpoint bound (m : prefixes) (a : text) : option text := match m with [] => None | (b, i) :: m => if text_dec a b then Some i else bound m a end.
(* where the reader is: before a field, in a field, in quotes, after a quote within quotes *)
Inductive place := Before | Inside | Quoted | AfterQuote.
Fixpoint read (p : place) (f : text) (r : list text) (l : text) : option (list (list text)) :=
  match l with
  | [] => match p with
          | Quoted => None
          | Before => match r with [] => Some [] | _ => Some [rev ([] :: r)] end
          | _ => Some [rev (rev f :: r)]
          end
  | c :: l =>
      let next := if Ascii.eqb c ","%char then read Before [] (rev f :: r) l
                  else if Ascii.eqb c nl then match read Before [] [] l with Some t => Some (rev (rev f :: r) :: t) | None => None end else None in
      match p with
      | Before => if Ascii.eqb c quote then read Quoted [] r l else if (Ascii.eqb c nl && match r with [] => true | _ => false end)%bool then read Before [] [] l else if Ascii.eqb c ","%char || Ascii.eqb c nl then next else read Inside [c] r l
      | Inside => if Ascii.eqb c quote then None else if Ascii.eqb c ","%char || Ascii.eqb c nl then next else read Inside (c :: f) r l
      | Quoted => if Ascii.eqb c quote then read AfterQuote f r l else read Quoted (c :: f) r l
      | AfterQuote => if Ascii.eqb c quote then read Quoted (c :: f) r l else next
      end
  end.
Definition read_csv (l : text) : option (list (list text)) := read Before [] [] l.

(* the value of a variable in a solution: the first one of that name *)
Fixpoint value_of (vs : list text) (ts : list (option term)) (v : text) : option term :=
  match vs, ts with w :: vs, t :: ts => if text_dec v w then t else value_of vs ts v | _, _ => None end.

(* aliases that can be told from other cells: no colon, no angle or quote at the start, and not the underscore of blank nodes *)
Definition alias_ok (a : text) : Prop := ~ In ":"%char a /\ hd " "%char a <> "<"%char /\ hd " "%char a <> quote /\ a <> chars "_".
Definition good (m : prefixes) : Prop := NoDup (List.map fst m) /\ Forall (fun x => alias_ok (fst x)) m.
(* terms that are shown with all they have *)
Definition plain (t : term) : Prop :=
  match t with
  | Iri _ | Blank _ => True
  | Lit (Str _ None) => True
  | Lit (Str _ (Some g)) => ~ In quote g
  | Lit (Typed _ d) => ~ In quote d
  | Lit _ => False
  end.
