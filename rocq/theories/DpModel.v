(* Default prefixes: the map of a session, and the declarations put in front of a source.
   Source: rudof_lib/src/utils/prefix_header.rs:6-54, rudof_lib/src/api/prefixes/implementations/{add_prefix,copy_prefix,remove_prefix,rename_prefix,prefixes}.rs,
   prefixmap/src/prefix_map.rs:104-152; used in load_data.rs:195-214, load_shacl_schema.rs:60-76, load_shex_schema.rs:81-82, load_sparql_query.rs:25-26.
   Simplifications: text is a list of ASCII characters, so only ASCII white space is white space; checking an IRI is a library function; error values are one value. *)
From Coq Require Import List String Ascii Bool Arith.
Import ListNotations.
Open Scope list_scope.

Definition text := list ascii.
Definition text_dec : forall a b : text, {a = b} + {a <> b} := list_eq_dec ascii_dec.
Definition chars (s : string) : text := list_ascii_of_string s.

(* PrefixMap of prefix_map.rs: an IndexMap, in the order of insertion *)
Definition prefixes := list (text * text).
(* prefix_map.rs:127-129 *)
Fixpoint find (m : prefixes) (a : text) : option text := match m with [] => None | (b, i) :: r => if text_dec a b then Some i else find r a end.
(* prefix_map.rs:111-124: an alias that is there keeps its place *)
Fixpoint add (m : prefixes) (a i : text) : prefixes := match m with [] => [(a, i)] | (b, j) :: r => if text_dec a b then (b, i) :: r else (b, j) :: add r a i end.
(* prefix_map.rs:132-134 *)
Fixpoint remove (m : prefixes) (a : text) : prefixes := match m with [] => [] | (b, j) :: r => if text_dec a b then r else (b, j) :: remove r a end.

(* the operations on a session; its default prefixes are an Option *)
Inductive op := Add (a i : text) | Copy (old new : text) | Remove (a : text) | Rename (old new : text).
Class lib := { iri_ok : text -> bool }.
(* add_prefix.rs:6-13, copy_prefix.rs:5-16, remove_prefix.rs:3-13, rename_prefix.rs:7-19; the Boolean tells whether it ended well *)
Definition step {L : lib} (m : option prefixes) (o : op) : option prefixes * bool :=
  match o with
  | Add a i => if iri_ok i then (Some (add (match m with Some m => m | None => [] end) a i), true) else (m, false)
  | Copy old new => match m with Some p => match find p old with Some i => (Some (add p new i), true) | None => (m, false) end | None => (m, false) end
  | Remove a => match m with Some p => match find p a with Some _ => (Some (remove p a), true) | None => (m, false) end | None => (m, false) end
  | Rename old new => match m with Some p => match find p old with Some i => (Some (add (remove p old) new i), true) | None => (m, false) end | None => (m, false) end
  end.
Definition run {L : lib} (m : option prefixes) (l : list op) : option prefixes := fold_left (fun m o => fst (step m o)) l m.

(* prefix_header.rs:7-12 *)
Inductive directive := AtPrefix | Prefix.
Definition nl : ascii := ascii_of_nat 10.
Definition white (c : ascii) : bool := let n := nat_of_ascii c in ((9 <=? n) && (n <=? 13)) || (n =? 32).
Definition colon : ascii := ":"%char.
Definition lower (c : ascii) : ascii := let n := nat_of_ascii c in if (65 <=? n) && (n <=? 90) then ascii_of_nat (n + 32) else c.
(* the flag i of the second regular expression *)
Definition same (d : directive) (a b : ascii) : bool := match d with AtPrefix => Ascii.eqb a b | Prefix => Ascii.eqb (lower a) (lower b) end.
Definition word (d : directive) : text := match d with AtPrefix => chars "@prefix" | Prefix => chars "PREFIX" end.
Fixpoint after (d : directive) (w l : text) : option text := match w, l with [], _ => Some l | a :: w, b :: l => if same d a b then after d w l else None | _, [] => None end.
Fixpoint skip (l : text) : text := match l with c :: t => if white c then skip t else l | [] => [] end.
Fixpoint name (l : text) : text * text := match l with c :: t => if white c || Ascii.eqb c colon then ([], l) else let (a, r) := name t in (c :: a, r) | [] => ([], []) end.
(* prefix_header.rs:14-15 from one place: white space, the word, white space, the alias, white space and a colon. Each part takes as much as it can, and since
   neighbouring parts have no character in common there is no other way to match (only an empty alias can split white space in several ways). *)
Definition declaration (d : directive) (l : text) : option (text * text) :=
  match after d (word d) (skip l) with
  | Some (c :: t) => if white c then let (a, r) := name (skip t) in match skip r with k :: r => if Ascii.eqb k colon then Some (a, r) else None | [] => None end else None
  | _ => None
  end.
(* captures_iter: the matches from left to right, each at the start of a line and after the one before. *)
Fixpoint scan (d : directive) (fuel : nat) (start : bool) (l : text) : list text :=
  match fuel with
  | 0 => []
  | S f => match (if start then declaration d l else None) with
           | Some (a, r) => a :: scan d f false r
           | None => match l with [] => [] | c :: t => scan d f (Ascii.eqb c nl) t end
           end
  end.
Definition declared (d : directive) (l : text) : list text := scan d (S (List.length l)) true l.
(* prefix_header.rs:48-49 *)
Definition line (d : directive) (a i : text) : text :=
  match d with AtPrefix => chars "@prefix " ++ a ++ chars ": <" ++ i ++ chars "> ." ++ [nl] | Prefix => chars "PREFIX " ++ a ++ chars ": <" ++ i ++ chars ">" ++ [nl] end.
(* prefix_header.rs:25-54 *)
Definition header (m : option prefixes) (source : text) (d : directive) : text :=
  match m with
  | None => []
  | Some p => List.concat (List.map (fun x => if in_dec text_dec (fst x) (declared d source) then [] else line d (fst x) (snd x)) p)
  end.
Definition with_header (m : option prefixes) (source : text) (d : directive) : text := header m source d ++ source.
