(* Information about a node: the arcs that are collected, the tree that is printed, and how the tree is read back.

   rudof_lib/src/api/data/implementations/show_node_info.rs:59-405, rudof_mcp/src/service/tools/node_tools_impl.rs:97-224.

   Simplifications.
   - The data are a graph in memory (NbModel).  Predicates are already IRIs.
   - A map from predicates to nodes is the list of its arcs; Term and More without arcs are the same.
   - Text is a list of code points.  How predicates and terms are written is a library.
   - termtree is a dependency that is not in the repository.  A line of a tree is, for each node above it but the root, a skip (of the last item or
     not) and its indentation, then the item, its indentation and the label, in preorder.
   - The statistics of the arcs that are read are left out. *)
From Coq Require Import List String Ascii Bool NArith.
Import ListNotations.
From Verif Require Import NbModel.
Open Scope list_scope.

(* neighs_rdf.rs:167-191 *)
Definition outgoing_arcs (g : graph) (s : subject) : arcs := fold_left (fun m x => insert_arc (fst x) (snd x) m) (List.map (fun t => (t_p t, t_o t)) (matching g (Some s) None None)) [].
Definition incoming_arcs (g : graph) (o : term) : arcs := fold_left (fun m x => insert_arc (fst x) (snd x) m) (List.map (fun t => (t_p t, TSub (t_s t))) (matching g None None (Some o))) [].
Definition pairs (m : arcs) : list (string * term) := flat_map (fun x => List.map (fun o => (fst x, o)) (snd x)) m.

Inductive info : Type := Info (p : string) (t : term) (rest : list info).
Fixpoint each {A B : Type} (f : A -> option B) (l : list A) : option (list B) :=
  match l with [] => Some [] | a :: l => match f a, each f l with Some b, Some bs => Some (b :: bs) | _, _ => None end end.
Definition leaf (x : string * term) : info := Info (fst x) (snd x) [].
(* show_node_info.rs:107-117 and 163-172 *)
Definition arc_map (g : graph) (s : subject) (preds : list string) : arcs :=
  match preds with [] => outgoing_arcs g s | _ => fst (outgoing_from (matching g (Some s) None None) preds) end.
(* show_node_info.rs:92-149; None: depth - 1 overflows *)
Fixpoint collect_outgoing (g : graph) (preds : list string) (depth : nat) (s : subject) : option (list info) :=
  let found := pairs (arc_map g s preds) in
  match depth with
  | 0 => each (fun x => match snd x with TSub _ => None | TLit _ => Some (leaf x) end) found
  | S d => match d with
           | 0 => Some (List.map leaf found)
           | S _ => each (fun x => match snd x with TSub o => option_map (Info (fst x) (snd x)) (collect_outgoing g preds d o) | TLit _ => Some (leaf x) end) found
           end
  end.
(* show_node_info.rs:185-231 *)
Fixpoint collect_incoming (g : graph) (depth : nat) (s : subject) : option (list info) :=
  let found := pairs (incoming_arcs g (TSub s)) in
  match depth with
  | 0 => each (fun x => match snd x with TSub _ => None | TLit _ => Some (leaf x) end) found
  | S d => match d with
           | 0 => Some (List.map leaf found)
           | S _ => each (fun x => match snd x with TSub o => option_map (Info (fst x) (snd x)) (collect_incoming g d o) | TLit _ => Some (leaf x) end) found
           end
  end.
(* show_node_info.rs:310-378: the predicates of a node are sorted *)
Definition pred_of (i : info) : string := match i with Info p _ _ => p end.
Fixpoint put (x : info) (l : list info) : list info :=
  match l with [] => [x] | y :: l' => if String.leb (pred_of x) (pred_of y) then x :: l else y :: put x l' end.
Definition sorted (l : list info) : list info := fold_right put [] l.
Fixpoint arrange (i : info) : info := match i with Info p t rest => Info p t (sorted (List.map arrange rest)) end.
Definition arrange_all (l : list info) : list info := sorted (List.map arrange l).

(* Printing *)
Definition text := list N.
Class lib : Type := { show_pred : string -> text; show_term : term -> text }.
Definition chars (s : string) : text := List.map N_of_ascii (list_ascii_of_string s).
Definition bar : N := 9472. Definition skip : N := 9474. Definition middle : N := 9500. Definition final : N := 9492.
Definition head : N := 9658. Definition up_head : N := 9650. Definition sp : N := 32. Definition nl : N := 10. Definition cr : N := 13.
Inductive way : Type := Out | In_.
Definition delimiter (w : way) : text := match w with Out => [sp; bar; head; sp] | In_ => [sp; bar; bar; sp] end.
Definition title (w : way) : text := chars match w with Out => "Outgoing arcs" | In_ => "Incoming arcs" end.
Section print.
Context {L : lib}.
(* show_node_info.rs:324-337 and 357-369 *)
Definition label (w : way) (p : string) (t : term) : text := [bar; sp] ++ show_pred p ++ delimiter w ++ show_term t.
(* show_node_info.rs:384-405: the skip of a last item is empty *)
Definition skips (above : list bool) : text := flat_map (fun last : bool => (if last then [] else [skip]) ++ [sp; sp; sp]) above.
Fixpoint lines_of (w : way) (above : list bool) (last : bool) (i : info) : list text :=
  match i with Info p t rest =>
    (skips above ++ [if last then final else middle; bar; bar] ++ label w p t) ::
    (fix go (l : list info) : list text := match l with [] => [] | x :: l => lines_of w (above ++ [last]) (match l with [] => true | _ => false end) x ++ go l end) rest
  end.
Fixpoint all_lines (w : way) (above : list bool) (l : list info) : list text :=
  match l with [] => [] | x :: l => lines_of w above (match l with [] => true | _ => false end) x ++ all_lines w above l end.
Definition ended (ls : list text) : text := flat_map (fun l => l ++ [nl]) ls.
(* show_node_info.rs:271-307 *)
Definition section_of (w : way) (root : subject) (l : list info) : text :=
  match l with
  | [] => []
  | _ => ended ([title w] ++ match w with Out => [show_term (TSub root)] | In_ => [show_term (TSub root); [up_head]] end ++ all_lines w [] (arrange_all l) ++ [[]])
  end.
Record node_info : Type := { ni_node : subject; ni_out : list info; ni_in : list info }.
Definition output_of (i : node_info) : text := section_of Out (ni_node i) (ni_out i) ++ section_of In_ (ni_node i) (ni_in i).
(* show_node_info.rs:59-90 and 253-262; the modes: both, outgoing, incoming *)
Definition build (g : graph) (preds : list string) (outs ins : bool) (depth : nat) (s : subject) : option node_info :=
  match (if outs then collect_outgoing g preds depth s else Some []), (if ins then collect_incoming g depth s else Some []) with
  | Some o, Some i => Some {| ni_node := s; ni_out := o; ni_in := i |}
  | _, _ => None
  end.
Definition output (is : list node_info) : text := flat_map output_of is.
End print.

(* Reading: node_tools_impl.rs:97-224 *)
Definition white (c : N) : bool :=
  ((9 <=? c) && (c <=? 13) || (c =? 32) || (c =? 133) || (c =? 160) || (c =? 5760) || (8192 <=? c) && (c <=? 8202) ||
   (c =? 8232) || (c =? 8233) || (c =? 8239) || (c =? 8287) || (c =? 12288))%N.
Fixpoint trim_start (l : text) : text := match l with [] => [] | c :: l' => if white c then trim_start l' else l end.
Definition trim (l : text) : text := rev (trim_start (rev (trim_start l))).
(* str::lines *)
Definition no_cr (l : text) : text := match rev l with c :: r => if N.eqb c cr then rev r else l | [] => l end.
Fixpoint split_lines (l : text) (current : text) : list text :=
  match l with
  | [] => match current with [] => [] | _ => [rev current] end
  | c :: l => if N.eqb c nl then no_cr (rev current) :: split_lines l [] else split_lines l (c :: current)
  end.
Definition lower (c : N) : N := if ((65 <=? c) && (c <=? 90))%N then (c + 32)%N else c.
Fixpoint same_text (a b : text) : bool := match a, b with [], [] => true | x :: a, y :: b => N.eqb x y && same_text a b | _, _ => false end.
Definition same_letters (a b : text) : bool := same_text (List.map lower a) (List.map lower b).
Fixpoint strip_prefix (d l : text) : option text :=
  match d, l with [], _ => Some l | x :: d, y :: l => if N.eqb x y then strip_prefix d l else None | _ :: _, [] => None end.
Fixpoint split_once (d l : text) : option (text * text) :=
  match strip_prefix d l with
  | Some r => Some ([], r)
  | None => match l with [] => None | c :: l => option_map (fun x => (c :: fst x, snd x)) (split_once d l) end
  end.
Definition glyph (c : N) : bool := N.eqb c skip || N.eqb c middle || N.eqb c final || N.eqb c bar.
Definition strip_glyphs (l : text) : text := trim (filter (fun c => negb (glyph c)) l).
Fixpoint tree_depth (l : text) : nat :=
  match l with
  | a :: b :: c :: d :: l => if (N.eqb a skip || N.eqb a sp) && N.eqb b sp && N.eqb c sp && N.eqb d sp then S (tree_depth l) else 0
  | _ => 0
  end.
Record arc_read : Type := { r_pred : text; r_target : text; r_depth : nat }.
Definition parse_line (w : way) (l : text) : option arc_read :=
  match split_once (delimiter w) l with
  | None => None
  | Some (lft, rgt) =>
      match strip_glyphs lft, trim rgt with
      | [], _ => None
      | _, [] => None
      | p, t => Some {| r_pred := p; r_target := t; r_depth := tree_depth l |}
      end
  end.
Record reading : Type := { rd_section : option way; rd_out : list arc_read; rd_in : list arc_read }.
Definition read_line (r : reading) (l : text) : reading :=
  if same_letters (trim l) (title Out) then {| rd_section := Some Out; rd_out := rd_out r; rd_in := rd_in r |}
  else if same_letters (trim l) (title In_) then {| rd_section := Some In_; rd_out := rd_out r; rd_in := rd_in r |}
  else if same_text (trim l) [] || same_text (trim l) [up_head] then r
  else match rd_section r with
       | Some Out => match parse_line Out l with Some a => {| rd_section := rd_section r; rd_out := rd_out r ++ [a]; rd_in := rd_in r |} | None => r end
       | Some In_ => match parse_line In_ l with Some a => {| rd_section := rd_section r; rd_out := rd_out r; rd_in := rd_in r ++ [a] |} | None => r end
       | None => r
       end.
Definition read (out : text) : reading := fold_left read_line (split_lines out []) {| rd_section := None; rd_out := []; rd_in := [] |}.
