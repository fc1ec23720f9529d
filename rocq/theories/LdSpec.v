(* What loading and querying should do, apart from how the program does it. *)
From Coq Require Import List String Ascii Bool.
Import ListNotations.
From Verif Require Import LdModel.
Open Scope list_scope.

Section spec.
Context {L : lib}.
Definition graph_of (r : rudof) : list triple := match held r with Some (Rdf d) => graph (primary d) | _ => [] end.
Definition prefixes_of (r : rudof) : prefixes := match held r with Some (Rdf d) => pm (primary d) | _ => [] end.
Definition used_of (r : rudof) : list (string * endpoint) := match held r with Some (Rdf d) => used d | _ => [] end.
(* the text that is read and what it says *)
Definition given (r : rudof) (f : format) (c : string) : string := match f with Turtle => with_header (defaults r) c | _ => c end.
Definition says (r : rudof) (f : format) (b c : string) (t : triple) : Prop := In (Some t) (events f b (given r f c)).
Definition declares (r : rudof) (f : format) (b c : string) : prefixes :=
  match f with Turtle => match declared b (given r f c) with Some p => p | None => [] end | _ => [] end.
Definition readable (r : rudof) (f : format) (b : string) (m : mode) (c : string) : Prop :=
  f <> TriG /\ f <> N3 /\ f <> Pg /\ (f = Turtle -> utf8 c = true /\ declared b (given r f c) <> None) /\
  (m = Strict -> ~ In None (events f b (given r f c))).
(* the binding of a prefix is the last one *)
Fixpoint last_binding (k : string) (l : prefixes) : option string :=
  match l with
  | [] => None
  | (k', v) :: l => match last_binding k l with Some x => Some x | None => if String.eqb k k' then Some v else None end
  end.
Definition base_is (q : request) (r : rudof) (b : string) : Prop :=
  match in_base q with Some x => x = b /\ iri_ok b = true | None => b = conf_base r end.
Definition kept (r r' : rudof) : Prop := defaults r' = defaults r /\ conf_base r' = conf_base r /\ catalog r' = catalog r.
Definition is_rdf (r : rudof) : Prop := exists d, held r = Some (Rdf d).
(* the answer that a query should have *)
Definition right_answer (q : query) (r : rudof) : option (list solution) :=
  match select_all q (used_of r) with Some s => Some (solve q (graph_of r) ++ s) | None => None end.

(* a line that declares a prefix: its name, a colon and the IRI in angle brackets, with spaces between, and white space within the brackets and around *)
Fixpoint every (f : ascii -> Prop) (s : string) : Prop := match s with EmptyString => True | String c t => f c /\ every f t end.
Definition space (c : ascii) : bool := existsb (Nat.eqb (nat_of_ascii c)) [9; 10; 11; 12; 13; 32].
Definition blank (s : string) : Prop := every (fun c => space c = true) s.
Definition tight (s : string) : Prop :=
  (forall c t, s = String c t -> space c = false) /\ (forall c t, s = (t ++ String c "")%string -> space c = false).
Definition one_line (s : string) : Prop := every (fun c => c <> ascii_of_nat 10) s.
Inductive prefix_line : string -> string -> string -> Prop :=
| Prefix_line a k x y u i v b : blank a -> blank b -> blank u -> one_line u -> blank v -> one_line v -> every (fun c => c = " "%char) x -> every (fun c => c = " "%char) y ->
    tight k -> one_line k -> tight i -> one_line i -> every (fun c => c <> "<"%char) i ->
    prefix_line (a ++ k ++ x ++ ":" ++ y ++ "<" ++ (u ++ i ++ v) ++ ">" ++ b)%string k i.
(* the lines of a file: declarations and blank lines *)
Inductive prefix_lines : list string -> prefixes -> Prop :=
| Lines_nil : prefix_lines [] []
| Lines_blank l ls ps : blank l -> prefix_lines ls ps -> prefix_lines (l :: ls) ps
| Lines_prefix l k i ls ps : prefix_line l k i -> prefix_lines ls ps -> prefix_lines (l :: ls) ((k, i) :: ps).
Fixpoint joined (ls : list string) : string :=
  match ls with [] => "" | [l] => l | l :: ls => (l ++ String (ascii_of_nat 10) (joined ls))%string end.
End spec.
