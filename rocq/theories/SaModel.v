(* Semantic actions.

   shex_ast/src/ir/actions/test_action_extension.rs:41-100 (Test), map_action_extension.rs:36-66 (Map), map_state.rs:9-22,
   semantic_actions_registry.rs:62-92, rudof_iri/src/iri/iris.rs:103-111 (equal_without_fragment), 157-168 (parse_turtle),
   shex_ast/src/ir/ast2ir.rs:659-756, 866-878 (actions of triple constraints), shex_ast/src/ast/cond_kind.rs:122-130,
   rbe/src/match_cond.rs:78-88, shex_validation/src/engine.rs:79-110, 2074-2086 (start actions).

   Simplifications.
   - Texts are lists of characters; the regular expression is that of the code, with all its parses in the order of the regex crate.
   - Nodes, how they are shown, and which texts are IRIs are a library.  Whitespace is ASCII whitespace.
   - What is printed and the map of the Map extension are one state.  Pending references of conditions are left out.
   - Hash maps are association lists. *)
From Coq Require Import List Ascii String Bool NArith Arith.
Import ListNotations.
Open Scope list_scope.

Definition text := list ascii.
Definition t (s : string) : text := list_ascii_of_string s.
Definition text_eqb (a b : text) : bool := if list_eq_dec ascii_dec a b then true else false.
Definition quote : ascii := ascii_of_nat 34.
Definition backslash : ascii := ascii_of_nat 92.
Definition blank : ascii := " "%char.

(* The regular expressions of the regex crate that are used: leftmost-first, all parses in order of preference; the captures and the
   rest of the text. *)
Inductive regex : Type :=
| Chr (p : ascii -> bool) | Eps | Cat (r s : regex) | Alt (r s : regex) | Star (r : regex) | Group (n : nat) (r : regex).
Definition caps := list (nat * text).
Definition then_with (k : text -> list (caps * text)) (x : caps * text) : list (caps * text) :=
  List.map (fun y => (fst x ++ fst y, snd y)) (k (snd x)).
Fixpoint star (f : text -> list (caps * text)) (n : nat) (l : text) : list (caps * text) :=
  match n with
  | O => [([], l)]
  | S n => flat_map (fun x => if Nat.ltb (List.length (snd x)) (List.length l) then then_with (star f n) x else []) (f l) ++ [([], l)]
  end.
Fixpoint parses (r : regex) (l : text) : list (caps * text) :=
  match r with
  | Chr p => match l with a :: l => if p a then [([], l)] else [] | [] => [] end
  | Eps => [([], l)]
  | Cat r s => flat_map (then_with (parses s)) (parses r l)
  | Alt r s => parses r l ++ parses s l
  | Star r => star (parses r) (List.length l) l
  | Group n r => List.map (fun x => ((n, firstn (List.length l - List.length (snd x)) l) :: fst x, snd x)) (parses r l)
  end.
(* of an expression between ^ and $ *)
Definition whole (x : caps * text) : bool := match snd x with [] => true | _ => false end.
Definition captures (r : regex) (l : text) : option caps :=
  match filter whole (parses r l) with [] => None | x :: _ => Some (fst x) end.
Fixpoint group (n : nat) (c : caps) : option text :=
  match c with [] => None | (m, w) :: c => if Nat.eqb n m then Some w else group n c end.

Definition chr (a : ascii) : regex := Chr (Ascii.eqb a).
Fixpoint word (w : text) : regex := match w with [] => Eps | a :: w => Cat (chr a) (word w) end.
Definition blanks : regex := Star (chr blank).
Definition oneof (w : text) : regex := Chr (fun a => existsb (Ascii.eqb a) w).
Definition noneof (w : text) : regex := Chr (fun a => negb (existsb (Ascii.eqb a) w)).
(* test_action_extension.rs:50 *)
Definition re_string : regex :=
  Cat (chr quote) (Cat (Star (Alt (noneof [backslash; quote]) (Alt (word [backslash; backslash]) (word [backslash; quote])))) (chr quote)).
Definition re_argument : regex := Alt (Group 2 re_string) (Group 3 (oneof (t "spo"))).
Definition re_test : regex :=
  Cat blanks (Cat (Group 1 (Alt (word (t "fail")) (word (t "print"))))
    (Cat blanks (Cat (chr "(") (Cat blanks (Cat re_argument (Cat blanks (Cat (chr ")") blanks))))))).

(* str::replace of two characters *)
Fixpoint replace2 (a b : ascii) (by_ : text) (l : text) : text :=
  match l with
  | x :: (y :: l') as l1 => if Ascii.eqb x a && Ascii.eqb y b then by_ ++ replace2 a b by_ l' else x :: replace2 a b by_ l1
  | l => l
  end.

Class lib : Type := { node : Type; show_node : node -> text; new_iri : text -> option text }.

(* str::split, str::trim *)
Fixpoint before_hash (l : text) : text := match l with [] => [] | a :: l => if Ascii.eqb a "#" then [] else a :: before_hash l end.
Definition white (a : ascii) : bool := let n := nat_of_ascii a in Nat.eqb n 32 || (Nat.leb 9 n && Nat.leb n 13).
Fixpoint trim_start (l : text) : text := match l with a :: l' => if white a then trim_start l' else l | [] => [] end.
Definition trim (l : text) : text := rev (trim_start (rev (trim_start l))).

Section Actions.
Context {L : lib}.

(* semantic_action_context.rs:11-20; a predicate is shown *)
Record context : Type := { c_s : option node; c_p : option text; c_o : option node }.
Record state : Type := { mapped : list (text * node); printed : list text }.
Inductive error : Type := InvalidTest | InvalidParameter | NoObject | Failed (m : text) | Unknown.
Inductive outcome : Type := Fine | Wrong (e : error).
Inductive extension : Type := Test | Map.

(* iris.rs:103-111, 157-168 *)
Definition equal_without_fragment (a b : text) : bool := text_eqb (before_hash a) (before_hash b).
Definition parse_turtle (s : text) : option text :=
  match trim s with
  | a :: w => match rev w with
              | b :: w' => if Ascii.eqb a "<" && Ascii.eqb b ">" then new_iri (rev w') else None
              | [] => None
              end
  | [] => None
  end.

(* test_action_extension.rs:41-100 *)
Definition shown (n : option node) : option text := option_map show_node n.
Definition message_of (c : caps) (ctx : context) : text :=
  match group 2 c with
  | Some quoted => replace2 backslash quote [quote] (replace2 backslash backslash [backslash] (removelast (tl quoted)))
  | None => match (match group 3 c with
                   | Some ["s"%char] => shown (c_s ctx)
                   | Some ["p"%char] => c_p ctx
                   | Some ["o"%char] => shown (c_o ctx)
                   | _ => None
                   end) with
            | Some m => m
            | None => []
            end
  end.
Definition run_test (code : option text) (ctx : context) (st : state) : outcome * state :=
  match code with
  | None => (Fine, st)
  | Some code =>
      match captures re_test code with
      | None => (Wrong InvalidTest, st)
      | Some c => if (match group 1 c with Some d => text_eqb d (t "print") | None => false end)
                  then (Fine, {| mapped := mapped st; printed := printed st ++ [message_of c ctx] |})
                  else (Wrong (Failed (message_of c ctx)), st)
      end
  end.

(* map_state.rs:15-17 *)
Fixpoint put (k : text) (v : node) (m : list (text * node)) : list (text * node) :=
  match m with [] => [(k, v)] | (k', v') :: m => if text_eqb k k' then (k, v) :: m else (k', v') :: put k v m end.
Fixpoint get (k : text) (m : list (text * node)) : option node :=
  match m with [] => None | (k', v) :: m => if text_eqb k k' then Some v else get k m end.
(* map_action_extension.rs:43-66 *)
Definition run_map (code : option text) (ctx : context) (st : state) : outcome * state :=
  match code with
  | None => (Wrong InvalidParameter, st)
  | Some code => match parse_turtle (trim code) with
                 | None => (Wrong InvalidParameter, st)
                 | Some k => match c_o ctx with
                             | None => (Wrong NoObject, st)
                             | Some o => (Fine, {| mapped := put k o (mapped st); printed := printed st |})
                             end
                 end
  end.
Definition run_extension (e : extension) := match e with Test => run_test | Map => run_map end.
Definition extension_iri (e : extension) : text :=
  match e with Test => t "http://shex.io/extensions/Test/" | Map => t "http://shex.io/extensions/Map/" end.

(* semantic_actions_registry.rs:62-92 *)
Definition find_code (reg : list extension) (iri : text) : option extension :=
  List.find (fun e => equal_without_fragment (extension_iri e) iri) reg.
Definition run_action (reg : list extension) (iri : text) (code : option text) (ctx : context) (st : state) : outcome * state :=
  match find_code reg iri with None => (Wrong Unknown, st) | Some e => run_extension e code ctx st end.
(* load_shex_schema.rs:144-147, ast2ir.rs:43-46 *)
Definition usual : list extension := [Test; Map].

Record act : Type := { name : text; code : option text }.
(* Conditions: actions, and tests of the value *)
Inductive cond : Type := SemAct (a : act) | Check (p : node -> bool).
(* cond_kind.rs:122-130; without registry there is an error *)
Definition eval (reg : option (list extension)) (c : cond) (v : node) (ctx : context) (st : state) : bool * state :=
  match c with
  | SemAct a => match reg with
                | None => (false, st)
                | Some reg => let (o, st) := run_action reg (name a) (code a) ctx st in (match o with Fine => true | _ => false end, st)
                end
  | Check p => (p v, st)
  end.
(* match_cond.rs:82-86 *)
Fixpoint eval_all (reg : option (list extension)) (cs : list cond) (v : node) (ctx : context) (st : state) : bool * state :=
  match cs with
  | [] => (true, st)
  | c :: cs => let (ok, st) := eval reg c v ctx st in if ok then eval_all reg cs v ctx st else (false, st)
  end.
(* ast2ir.rs:659-660, 747-755, 866-878: the actions come first *)
Definition compile (reg : list extension) (acts : list act) (p : node -> bool) : option (list cond) :=
  if forallb (fun a => match find_code reg (name a) with Some _ => true | None => false end) acts
  then Some (List.map SemAct acts ++ [Check p]) else None.

(* engine.rs:2074-2086 *)
Definition start_context : context := {| c_s := None; c_p := None; c_o := None |}.
Fixpoint check_start_acts (reg : list extension) (acts : list act) (st : state) : bool * state :=
  match acts with
  | [] => (true, st)
  | a :: acts => let (o, st) := run_action reg (name a) (code a) start_context st in
                 match o with Fine => check_start_acts reg acts st | Wrong _ => (false, st) end
  end.
(* engine.rs:79-110 *)
Fixpoint validate {atom : Type} (prove : atom -> state -> bool * state) (reg : list extension) (start : list act) (pending : list atom) (st : state) : list (atom * bool) * state :=
  match pending with
  | [] => ([], st)
  | x :: pending => let (ok, st) := check_start_acts reg start st in
                    let (b, st) := if ok then prove x st else (false, st) in
                    let (res, st) := validate prove reg start pending st in ((x, b) :: res, st)
  end.
End Actions.
