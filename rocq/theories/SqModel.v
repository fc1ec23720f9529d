(* Converting a ShEx schema to a SPARQL query.

   shapes_converter/src/shex_to_sparql/shex2sparql.rs:14-48 (convert), 51-63 (shape_expr2query), 65-100
   (shape_expr2patterns), 102-113 (shape2patterns), 115-152 (triple_expr2patterns), 154-168 (var_from_predicate);
   var.rs:10-18, 38-43; select_query.rs:44-76; triple_pattern.rs:21-36; shex_ast/src/ast/schema.rs:265-271
   (find_shape_by_label); prefixmap/src/prefix_map.rs:363-365 (qualify), 391-400 (qualify_optional), 467-469
   (qualify_local), 472-481 (longest_prefix_match), 580-587 (Display); rudof_iri/src/iri/iris.rs:259-263.

   Simplifications.
   - The syntax tree is that of SjModel, names are resolved by the functions of CoModel.  The iteration order of a prefix map is
     that of the list.
   - Colours and hyperlinks of qualified names are switched off, as they are in every prefix map of a schema that is read.
   - Following references between shapes need not end; the function has fuel and gives [None] when it is used up.
   - All errors are one value.  A text that cannot be written is [None]. *)
From Coq Require Import List String Ascii Bool Arith DecimalString.
Import ListNotations.
From Verif Require Import SjModel CoModel.
Open Scope string_scope.

(* str::strip_prefix *)
Fixpoint strip (ns s : string) : option string :=
  match ns, s with
  | EmptyString, _ => Some s
  | String a ns, String b s => if Ascii.eqb a b then strip ns s else None
  | String _ _, EmptyString => None
  end.

(* prefix_map.rs:472-481: of several greatest elements, max_by_key gives the last *)
Fixpoint longest_from (best : option (string * string)) (pm : list (string * string)) (i : string) : option (string * string) :=
  match pm with
  | [] => best
  | (a, ns) :: pm =>
      longest_from
        match strip ns i with
        | Some rest =>
            match best with
            | Some (b, rest') => if Nat.ltb (String.length rest') (String.length rest) then best else Some (a, rest)
            | None => Some (a, rest)
            end
        | None => best
        end pm i
  end.
Definition longest := longest_from None.

(* prefix_map.rs:467-469 *)
Definition qualify_local (pm : list (string * string)) (i : string) : option string := option_map snd (longest pm i).
(* prefix_map.rs:363-365, 391-400 *)
Definition qualify (pm : list (string * string)) (i : string) : string :=
  match longest pm i with Some (a, rest) => a ++ ":" ++ rest | None => "<" ++ i ++ ">" end.

(* triple_pattern.rs:6-10 *)
Record pattern : Type := { t_subj : string; t_pred : iriref; t_obj : string }.

(* var.rs:38-43 *)
Definition generated (n : nat) : string := "var" ++ NilZero.string_of_uint (Nat.to_uint n).

Section Convert.
Context {L : lib}.
Variables (this : string) (sch : schema).

(* shex2sparql.rs:154-168 *)
Definition var_from_predicate (p : iriref) (n : nat) : res (string * nat) :=
  match p with
  | Iri i =>
      match s_prefixes sch with
      | None => Ok (generated (S n), S n)
      | Some pm => match qualify_local pm i with Some l => Ok (l, n) | None => Panic end
      end
  | Prefixed _ l => Ok (l, n)
  end.

(* shex2sparql.rs:115-152 *)
Fixpoint triple_expr2patterns (te : texpr) (n : nat) {struct te} : res (list pattern * nat) :=
  let all := fix all (l : list texpr) (n : nat) : res (list pattern * nat) :=
    match l with
    | [] => Ok ([], n)
    | te :: l => rbind (triple_expr2patterns te n) (fun r => rbind (all l (snd r)) (fun r' => Ok ((fst r ++ fst r')%list, snd r')))
    end in
  match te with
  | TEach _ l _ _ _ _ => all l n
  | TOne _ l _ _ _ _ => all l n
  | TTriple _ _ (Some true) _ _ _ _ _ _ => Panic
  | TTriple _ _ _ p _ _ _ _ _ =>
      rbind (var_from_predicate p n) (fun v => Ok ([{| t_subj := this; t_pred := p; t_obj := fst v |}], snd v))
  | TRef _ => Panic
  end.

(* schema.rs:265-271 *)
Definition find_shape_by_label (l : label) : res (option sexpr) :=
  match l with LIri i => find_shape_by_iri_ref sch i | _ => Panic end.

(* shex2sparql.rs:65-113 *)
Fixpoint shape_expr2patterns (fuel : nat) (e : sexpr) : option (res (list pattern)) :=
  match fuel with
  | O => None
  | S fuel =>
      match e with
      | SShape _ _ (Some te) _ _ _ => Some (rmap fst (triple_expr2patterns te 0))
      | SShape _ _ None _ _ _ => Some (Ok [])
      | SRef l =>
          match find_shape_by_label l with
          | Ok (Some e) => shape_expr2patterns fuel e
          | Ok None => Some Err
          | Err => Some Err
          | Panic => Some Panic
          end
      | _ => Some Err
      end
  end.

(* select_query.rs:8-12 *)
Record query : Type := { q_prefixes : option (list (string * string)); q_base : option string; q_patterns : list pattern }.

(* shex2sparql.rs:51-63 *)
Definition shape_expr2query (fuel : nat) (e : sexpr) : option (res query) :=
  option_map (rmap (fun ps => {| q_prefixes := s_prefixes sch; q_base := s_base sch; q_patterns := ps |})) (shape_expr2patterns fuel e).

(* shex2sparql.rs:14-48 *)
Definition convert (fuel : nat) (shape : option iriref) : option (res query) :=
  match shape with
  | Some i =>
      match find_shape_by_iri_ref sch i with
      | Ok (Some e) => shape_expr2query fuel e
      | Ok None => Some Err
      | Err => Some Err
      | Panic => Some Panic
      end
  | None =>
      match s_start sch with
      | Some e => shape_expr2query fuel e
      | None =>
          match s_shapes sch with
          | Some (d :: _) => shape_expr2query fuel (d_expr d)
          | Some [] => Some Err
          | None => Some Err
          end
      end
  end.

(* ------------------------------------------------------------------ *)
(* The text of a query                                                  *)

Definition newline : string := String (ascii_of_nat 10) "".

(* triple_pattern.rs:21-36 *)
Definition show_pattern (pm : list (string * string)) (t : pattern) : option string :=
  match (match t_pred t with
         | Iri i => Ok (qualify pm i)
         | Prefixed p l => resolve_prefix_local pm p l
         end) with
  | Ok p => Some ("?" ++ t_subj t ++ " " ++ p ++ " ?" ++ t_obj t ++ " .")
  | _ => None
  end.
(* prefix_map.rs:580-587 *)
Fixpoint show_prefixes (pm : list (string * string)) : string :=
  match pm with [] => "" | (a, i) :: pm => "prefix " ++ a ++ ": <" ++ i ++ ">" ++ newline ++ show_prefixes pm end.

Fixpoint show_patterns (before after : string) (pm : list (string * string)) (ts : list pattern) : option string :=
  match ts with
  | [] => Some ""
  | t :: ts =>
      match show_pattern pm t, show_patterns before after pm ts with
      | Some s, Some r => Some (before ++ s ++ after ++ r)
      | _, _ => None
      end
  end.

(* select_query.rs:44-76 *)
Definition show_query (q : query) : option string :=
  let base := match q_base q with Some b => b ++ newline | None => "" end in
  match q_prefixes q with
  | Some pm => option_map (fun s => base ++ show_prefixes pm ++ newline ++ "SELECT * WHERE {" ++ newline ++ s ++ "}" ++ newline) (show_patterns " " newline pm (q_patterns q))
  | None => option_map (fun s => base ++ s ++ "}" ++ newline) (show_patterns "" "" [] (q_patterns q))
  end.
End Convert.
