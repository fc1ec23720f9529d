(* What semantic actions should do.  Of the model only the data types are used. *)
From Coq Require Import List Ascii String Bool.
Import ListNotations.
From Verif Require Import SaModel.
Open Scope list_scope.

(* The calls of http://shex.io/extensions/Test/ *)
Inductive escaped : text -> text -> Prop :=
| Es_nil : escaped [] []
| Es_char a w m : a <> backslash -> a <> quote -> escaped w m -> escaped (a :: w) (a :: m)
| Es_backslash w m : escaped w m -> escaped (backslash :: backslash :: w) (backslash :: m)
| Es_quote w m : escaped w m -> escaped (backslash :: quote :: w) (quote :: m).
Inductive argument : Type := Message (m : text) | Subject | Predicate | Object.
Inductive written : text -> argument -> Prop :=
| Wr_message w m : escaped w m -> written (quote :: w ++ [quote]) (Message m)
| Wr_s : written ["s"%char] Subject
| Wr_p : written ["p"%char] Predicate
| Wr_o : written ["o"%char] Object.
Inductive directive : Type := Print | Fail.
Definition keyword (d : directive) : text := match d with Print => t "print" | Fail => t "fail" end.
Definition spaces (n : nat) : text := repeat blank n.
Inductive call : text -> directive -> argument -> Prop :=
| Call_intro i j k l m d w a : written w a ->
    call (spaces i ++ keyword d ++ spaces j ++ t "(" ++ spaces k ++ w ++ spaces l ++ t ")" ++ spaces m) d a.

Section Meaning.
Context {L : lib}.
(* the message; a particle must have a value *)
Inductive says (ctx : context) : argument -> text -> Prop :=
| Says_message m : says ctx (Message m) m
| Says_s n : c_s ctx = Some n -> says ctx Subject (show_node n)
| Says_p p : c_p ctx = Some p -> says ctx Predicate p
| Says_o n : c_o ctx = Some n -> says ctx Object (show_node n).

(* an IRI with a fragment of a base *)
Definition based (base iri : text) : Prop := iri = base \/ exists f, iri = base ++ "#"%char :: f.
(* IRIs between < and >, with whitespace around *)
Definition space_only (w : text) : Prop := forall a, In a w -> In (nat_of_ascii a) [9; 10; 11; 12; 13; 32].
Definition names (code k : text) : Prop := exists u w v, space_only u /\ space_only v /\ code = u ++ "<"%char :: w ++ ">"%char :: v /\ new_iri w = Some k.
End Meaning.

Section Effects.
Context {L : lib}.
(* What an action does when nothing is wrong. *)
Inductive effect : Type := Nothing | Prints (m : text) | Maps (k : text) (n : node).
Inductive fine (ctx : context) (a : act) : effect -> Prop :=
| Fine_none : based (t "http://shex.io/extensions/Test/") (name a) -> code a = None -> fine ctx a Nothing
| Fine_print c arg m : based (t "http://shex.io/extensions/Test/") (name a) -> code a = Some c -> call c Print arg -> says ctx arg m -> fine ctx a (Prints m)
| Fine_map c k o : based (t "http://shex.io/extensions/Map/") (name a) -> code a = Some c -> names c k -> c_o ctx = Some o -> fine ctx a (Maps k o).
Definition messages (es : list effect) : list text := flat_map (fun e => match e with Prints m => [m] | _ => [] end) es.
(* the last node of a key, if there is one *)
Inductive last_of (k : text) : list effect -> node -> Prop :=
| Last_here es n es' : (forall n', ~ In (Maps k n') es') -> last_of k (es ++ Maps k n :: es') n.
(* the particles of a call have values *)
Definition bound (ctx : context) (arg : argument) : Prop := exists m, says ctx arg m.
Definition all_bound (ctx : context) (acts : list act) : Prop := forall a c d arg, In a acts -> code a = Some c -> call c d arg -> bound ctx arg.
End Effects.
