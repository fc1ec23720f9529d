(* The results of SELECT queries as tables and as CSV.
   Source: rudof_rdf/src/rdf_core/query/query_solutions.rs:66-69,104-118,149-262, query_solution.rs:50-66, query/var_name.rs:35-40, query/mod.rs:10-50,
   rudof_rdf/src/rdf_core/term/literal/literal.rs:239-294,994-999, numeric_literal.rs:616-636, prefixmap/src/prefix_map.rs:204-210,250-261,363-400,472-481,
   sparql_service/src/srdf_data/rdf_data.rs:385-408, rudof_lib/src/api/query/implementations/serialize_query_results.rs:11-71 (results of SELECT).
   Libraries: the crate csv with its defaults (a field is quoted if it has a comma, a quote or an end of line, a record of one empty field is a pair of quotes, lines end with LF, all records
   have the length of the first) is written out; the layout of tabled and serde_json are functions of what they are given.
   Simplifications: text is a list of characters; no triple terms, colours and hyperlinks; datatypes are IRIs; writing never fails; error values are one value. *)
From Coq Require Import List String Ascii Bool Arith.
Import ListNotations.
Open Scope list_scope.

Definition text := list ascii.
Definition text_dec : forall a b : text, {a = b} + {a <> b} := list_eq_dec ascii_dec.
Definition chars (s : string) : text := list_ascii_of_string s.
Definition quote : ascii := """"%char.
Definition nl : ascii := ascii_of_nat 10.
Definition cr : ascii := ascii_of_nat 13.

Definition prefixes := list (text * text).
Fixpoint strip (p l : text) : option text := match p, l with [], _ => Some l | a :: p, b :: l => if ascii_dec a b then strip p l else None | _, [] => None end.
(* prefix_map.rs:472-481: the last of the longest *)
Fixpoint longest (m : prefixes) (i : text) (best : option (text * text)) : option (text * text) :=
  match m with
  | [] => best
  | (a, n) :: m => match strip n i with
                   | Some r => longest m i (match best with Some (_, s) => if List.length s <? List.length r then best else Some (a, r) | None => Some (a, r) end)
                   | None => longest m i best
                   end
  end.
(* prefix_map.rs:363-400 *)
Definition qualify (m : prefixes) (i : text) : text := match longest m i None with Some (a, r) => a ++ ":"%char :: r | None => "<"%char :: i ++ [">"%char] end.
(* prefix_map.rs:250-261 *)
Definition basic : prefixes :=
  [([], chars "http://example.org/"); (chars "dc", chars "http://purl.org/dc/elements/1.1/"); (chars "rdf", chars "http://www.w3.org/1999/02/22-rdf-syntax-ns#");
   (chars "rdfs", chars "http://www.w3.org/2000/01/rdf-schema#"); (chars "sh", chars "http://www.w3.org/ns/shacl#"); (chars "xsd", chars "http://www.w3.org/2001/XMLSchema#")].

(* literal.rs: a number is its kind and how its value is shown; dates likewise *)
Inductive literal := Str (lexical : text) (lang : option text) | Typed (lexical datatype : text) | Wrong (lexical datatype : text) | Num (kind shown : text) | Truth (b : bool) | Date (shown : text).
Inductive term := Iri (i : text) | Blank (b : text) | Lit (l : literal).
(* literal.rs:239-294 *)
Definition show_literal (m : prefixes) (l : literal) : text :=
  match l with
  | Str x None => quote :: x ++ [quote]
  | Str x (Some g) => quote :: x ++ quote :: "@"%char :: g
  | Typed x d | Wrong x d => quote :: x ++ quote :: "^"%char :: "^"%char :: qualify m d
  | Num _ s => s
  | Truth b => if b then chars "true" else chars "false"
  | Date s => s
  end.
(* query_solutions.rs:166-187,229-250; the literal is shown with its own map *)
Definition cell (m : prefixes) (t : option term) : text :=
  match t with
  | Some (Iri i) => qualify m i
  | Some (Blank b) => chars "_:" ++ b
  | Some (Lit l) => show_literal basic l
  | None => []
  end.

Record solution := { variables : list text; values : list (option term) }.
(* query_solution.rs:50-55 at a position *)
Definition find (s : solution) (n : nat) : option term := match nth_error (values s) n with Some v => v | None => None end.
(* var_name.rs:35-40 *)
Definition heading (s : solution) : list text := List.map (fun v => "?"%char :: v) (variables s).
Definition record (m : prefixes) (s : solution) : list text := List.map (fun n => cell m (find s n)) (seq 0 (List.length (variables s))).

(* the crate csv *)
Definition special (c : ascii) : bool := Ascii.eqb c ","%char || Ascii.eqb c quote || Ascii.eqb c nl || Ascii.eqb c cr.
Definition field (f : text) : text := if existsb special f then quote :: flat_map (fun c => if Ascii.eqb c quote then [quote; quote] else [c]) f ++ [quote] else f.
Fixpoint fields (l : list text) : text := match l with [] => [] | [f] => field f | f :: r => field f ++ ","%char :: fields r end.
Definition csv_record (l : list text) : text := (match fields l with [] => [quote; quote] | r => r end) ++ [nl].
(* None: a record of another length than the first *)
Fixpoint csv_records (n : nat) (l : list (list text)) : option text :=
  match l with
  | [] => Some []
  | r :: l => if List.length r =? n then match csv_records n l with Some t => Some (csv_record r ++ t) | None => None end else None
  end.

(* query_solutions.rs:149-193 *)
Definition write_csv (m : prefixes) (l : list solution) : option text :=
  match l with
  | [] => Some (chars "No results")
  | s :: _ => csv_records (List.length (heading s)) (heading s :: List.map (record m) l)
  end.

(* query_solutions.rs:195-262 *)
Inductive style := ModernRounded | AsciiStyle | Markdown.
Class lib := { layout : style -> list (list text) -> text; number : nat -> text }.
Fixpoint numbered {L : lib} (m : prefixes) (n : nat) (l : list solution) : list (list text) :=
  match l with [] => [] | s :: l => (number (S n) :: record m s) :: numbered m (S n) l end.
Definition rows {L : lib} (m : prefixes) (l : list solution) : list (list text) := match l with [] => [] | s :: _ => ([] :: heading s) :: numbered m 0 l end.
Definition write_ascii {L : lib} (st : option style) (m : prefixes) (l : list solution) : text :=
  match l with [] => chars "No results" | _ => layout (match st with Some s => s | None => ModernRounded end) (rows m l) ++ [nl] end.
(* query/mod.rs:10-43, query_solutions.rs:104-118, serialize_query_results.rs:24-40: the options are always the default ones *)
Inductive format := Internal | Csv | MarkdownFormat.
Definition serialize {L : lib} (f : format) (m : prefixes) (l : list solution) : option text :=
  match f with Internal | MarkdownFormat => Some (write_ascii (Some ModernRounded) m l) | Csv => write_csv m l end.

(* rdf_data.rs:385-408, prefix_map.rs:139-143: the solutions of the data, then of each endpoint, and the prefixes of all *)
Fixpoint put (m : prefixes) (a i : text) : prefixes := match m with [] => [(a, i)] | (b, j) :: r => if text_dec a b then (b, i) :: r else (b, j) :: put r a i end.
Definition select (parts : list (list solution * prefixes)) : list solution * prefixes :=
  fold_left (fun acc p => (fst acc ++ fst p, fold_left (fun m x => put m (fst x) (snd x)) (snd p) (snd acc))) parts ([], []).
