(* The conformance metrics of rudof_generate/src/conformance_metrics.rs, and those of the translation in converters/shex_to_unified.rs.

   The triples of a graph are a list in any order.  Percentages are rationals.  Regular expressions and the numbers of f64 are taken
   from a library; texts are bytes in UTF-8. *)
From Coq Require Import List String Ascii Bool ZArith QArith.
Import ListNotations.
From Verif Require Import SjModel CoModel GenModel.
Open Scope string_scope.

(* oxrdf: NamedOrBlankNode, Term, Triple *)
Inductive mnode : Type := MIri (s : string) | MBlank (s : string).
Inductive mterm : Type := MNode (n : mnode) | MLit (s dt : string).
Record mtriple : Type := { m_s : mnode; m_p : string; m_o : mterm }.

Class nums : Type := Nums {
  f64 : Type;
  parse : string -> option f64;
  f_le : f64 -> f64 -> bool;
  f_lt : f64 -> f64 -> bool;
  regex : string -> option (string -> bool)
}.

Definition mnode_eqb (a b : mnode) : bool :=
  match a, b with MIri s, MIri t | MBlank s, MBlank t => String.eqb s t | _, _ => false end.
Definition key_eqb (a b : mnode * string) : bool := mnode_eqb (fst a) (fst b) && String.eqb (snd a) (snd b).

(* hash maps *)
Fixpoint find_at {K V : Type} (eqb : K -> K -> bool) (k : K) (m : list (K * V)) : option V :=
  match m with [] => None | (k', v) :: m => if eqb k k' then Some v else find_at eqb k m end.
Fixpoint put_at {K V : Type} (eqb : K -> K -> bool) (k : K) (v : V) (m : list (K * V)) : list (K * V) :=
  match m with [] => [(k, v)] | (k', v') :: m => if eqb k k' then (k', v) :: m else (k', v') :: put_at eqb k v m end.

(* str::chars().count(): the bytes that do not continue a character *)
Fixpoint chars (s : string) : Z :=
  match s with
  | EmptyString => 0%Z
  | String c s => ((if (128 <=? nat_of_ascii c)%nat && (nat_of_ascii c <? 192)%nat then 0 else 1) + chars s)%Z
  end.

Definition shapes := list (string * ushape).
Definition types := list (mnode * string).
Definition occurrences := list ((mnode * string) * Z).

(* conformance_metrics.rs:11-26 *)
Record translation : Type := { t_original : Z; t_represented : Z }.
Record metrics : Type := {
  total_triples : Z; valid_triples : Z; validity : Q; original : Z; represented : Z; loss : Q }.

Section Metrics.
Context {F : nums}.

(* conformance_metrics.rs:42-53 *)
Definition step (m : types * occurrences) (t : mtriple) : types * occurrences :=
  if String.eqb (m_p t) rdf_type then
    match m_o t with MNode (MIri c) => (put_at mnode_eqb (m_s t) c (fst m), snd m) | _ => m end
  else
    let k := (m_s t, m_p t) in
    (fst m, put_at key_eqb k (match find_at key_eqb k (snd m) with Some n => n | None => 0 end + 1)%Z (snd m)).
Definition scan (ts : list mtriple) : types * occurrences := fold_left step ts ([], []).

(* conformance_metrics.rs:190-233 *)
Definition term_number (o : mterm) : option f64 := match o with MLit s _ => parse s | _ => None end.
Definition value_number (v : uvalue) : option f64 := match v with ULit s _ => parse s | _ => None end.
Definition compare_numeric (o : mterm) (v : uvalue) (cmp : f64 -> f64 -> bool) : bool :=
  match term_number o, value_number v with Some a, Some b => cmp a b | _, _ => false end.
Definition value_matches_term (v : uvalue) (o : mterm) : bool :=
  match v, o with
  | UIri e, MNode (MIri a) => String.eqb a e
  | UBNode e, MNode (MBlank a) => String.eqb a e
  | ULit e dt, MLit a d => if String.eqb a e then match dt with Some dt => String.eqb d dt | None => true end else false
  | _, _ => false
  end.

(* conformance_metrics.rs:136-188 *)
Definition evaluate (ty : types) (c : ucons) (o : mterm) : bool :=
  match c with
  | CDatatype e => match o with MLit _ d => String.eqb d e | _ => false end
  | CShapeRef r => match o with MNode n => match find_at mnode_eqb n ty with Some s => String.eqb s r | None => false end | _ => false end
  | CKind k =>
      match k, o with
      | UKIri, MNode (MIri _) | UKBNode, MNode (MBlank _) | UKLiteral, MLit _ _ | UKBNodeOrIri, MNode _
      | UKBNodeOrLiteral, MNode (MBlank _) | UKBNodeOrLiteral, MLit _ _ | UKIriOrLiteral, MNode (MIri _) | UKIriOrLiteral, MLit _ _ => true
      | _, _ => false
      end
  | CPattern p => match o with MLit s _ => match regex p with Some m => m s | None => false end | _ => false end
  | CMinIn v => compare_numeric o v (fun a b => f_le b a)
  | CMaxIn v => compare_numeric o v (fun a b => f_le a b)
  | CMinEx v => compare_numeric o v (fun a b => f_lt b a)
  | CMaxEx v => compare_numeric o v (fun a b => f_lt a b)
  | CMinLength n => match o with MLit s _ => (n <=? chars s)%Z | _ => false end
  | CMaxLength n => match o with MLit s _ => (chars s <=? n)%Z | _ => false end
  | CIn vs => existsb (fun v => value_matches_term v o) vs
  | CHasValue v => value_matches_term v o
  end.

(* conformance_metrics.rs:98-134 *)
Definition validate (m : shapes) (ty : types) (oc : occurrences) (t : mtriple) : bool :=
  match find_at mnode_eqb (m_s t) ty with
  | None => false
  | Some id =>
      match lookup id m with
      | None => false
      | Some sh =>
          match find (fun p => String.eqb (u_iri p) (m_p t)) (u_props sh) with
          | None => false
          | Some p =>
              let count := match find_at key_eqb (m_s t, m_p t) oc with Some n => n | None => 0%Z end in
              if match u_max p with Some mx => (mx <? count)%Z | None => false end then false
              else forallb (fun c => evaluate ty c (m_o t)) (u_cons p)
          end
      end
  end.

(* conformance_metrics.rs:57-70 *)
Definition is_valid (m : shapes) (ty : types) (oc : occurrences) (t : mtriple) : bool :=
  if String.eqb (m_p t) rdf_type then
    match m_o t with MNode (MIri c) => match lookup c m with Some _ => true | None => false end | _ => false end
  else validate m ty oc t.

(* conformance_metrics.rs:28-96 *)
Definition from_graph_and_model (ts : list mtriple) (m : shapes) (tr : translation) : metrics :=
  let '(ty, oc) := scan ts in
  let n := Z.of_nat (List.length ts) in
  let v := Z.of_nat (List.length (filter (is_valid m ty oc) ts)) in
  let r := Z.min (t_represented tr) (t_original tr) in
  {| total_triples := n; valid_triples := v;
     validity := if (n =? 0)%Z then 0 else (inject_Z v / inject_Z n) * 100;
     original := t_original tr; represented := r;
     loss := if (t_original tr =? 0)%Z then 0 else 100 * (1 - inject_Z r / inject_Z (t_original tr)) |}.
End Metrics.

Section Translation.
Context {L : lib}.
Definition plus (a b : Z * Z) : Z * Z := ((fst a + fst b)%Z, (snd a + snd b)%Z).
Definition sum (l : list (Z * Z)) : Z * Z := fold_right plus (0%Z, 0%Z) l.
Definition present {A} (o : option A) : Z * Z := match o with Some _ => (1, 1)%Z | None => (0, 0)%Z end.

(* shex_to_unified.rs:191-236 *)
Definition facet_counts (f : facet) : Z * Z :=
  match f with
  | FLength _ | FTotal _ | FFraction _ => (1, 0)%Z
  | _ => (1, 1)%Z
  end.
(* shex_to_unified.rs:147-189 *)
Definition node_counts (n : nodec) : Z * Z :=
  sum [present (n_datatype n); present (n_kind n);
       (match n_values n with Some vs => Z.of_nat (List.length vs) | None => 0%Z end, 0%Z);
       match n_facets n with Some fs => sum (List.map facet_counts fs) | None => (0, 0)%Z end].
(* shex_to_unified.rs:85-145: how much the metrics grow *)
Fixpoint expr_counts (te : texpr) : Z * Z :=
  match te with
  | TEach _ l _ _ _ _ | TOne _ l _ _ _ _ => sum (List.map expr_counts l)
  | TTriple _ _ _ _ ve mn mx _ _ =>
      sum [present mn; present mx;
           match ve with
           | Some (SRef _) => (1, 1)%Z
           | Some (SNode n) => node_counts n
           | Some _ => (1, 0)%Z
           | None => (0, 0)%Z
           end]
  | TRef _ => (0, 0)%Z
  end.
(* shex_to_unified.rs:55-83 *)
Definition translation_of (ds : list decl) : translation :=
  let r := sum (List.map (fun d => match d_expr d with SShape _ _ (Some te) _ _ _ => expr_counts te | _ => (0, 0)%Z end) ds) in
  {| t_original := fst r; t_represented := snd r |}.
End Translation.
