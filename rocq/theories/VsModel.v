(** Value sets: literals of ShExC, compilation, membership.

    shex_ast/src/ir/value_set_value.rs lines 84-220 (lang_stem_matches, match_value), ir/value_set.rs lines 19-21
    (check_value), ir/object_value.rs lines 14-26, ir/ast2ir.rs lines 879-886 (iri_ref2iri_s), 1118-1347
    (create_value_set and the cnv_ functions), compact/shex_grammar.rs lines 916-1080 (value sets), 1180-1310
    (literals).

    Simplifications: strings and literals as in LitModel. Absent exclusions are the empty list. The
    prefix map is the function resolving a prefixed name. *)
From Coq Require Import ZArith NArith List Bool.
Import ListNotations.
From Verif Require Import NumModel LitModel.

Inductive iri_ref := Iri (s : str) | Prefixed (prefix local : str).
(** stems; [None] is the wildcard *)
Inductive excl (A : Type) := EOne (a : A) | EStem (a : A).
Arguments EOne {A}. Arguments EStem {A}.
Inductive value (I : Type) :=
| VIriStem (stem : I)
| VIriRange (stem : option I) (ex : list (excl I))
| VLitStem (stem : str)
| VLitRange (stem : option str) (ex : list (excl str))
| VLang (tag : str)
| VLangStem (stem : option str)
| VLangRange (stem : option str) (ex : list (excl str))
| VIri (i : I)
| VLit (l : lit).
Arguments VIriStem {I}. Arguments VIriRange {I}. Arguments VLitStem {I}. Arguments VLitRange {I}. Arguments VLang {I}.
Arguments VLangStem {I}. Arguments VLangRange {I}. Arguments VIri {I}. Arguments VLit {I}.

(** ** literals of ShExC, shex_grammar.rs 1180-1310; a numeric literal carries one of three datatypes *)
Inductive shexc_lit := SPlain (s : str) | SLang (s tag : str) | STyped (s : str) (d : dtype) | SNumeric (s : str) (d : dtype) | SBool (b : bool).
(** tags are normalised when the schema is read *)
Definition read_lit (L : lib) (e : shexc_lit) : option lit :=
  match e with
  | SPlain s => Some (LString s None)
  | SLang s tag => match lang_new L tag with Some g => Some (LString s (Some g)) | None => None end
  | STyped s d | SNumeric s d => Some (LTyped s d)
  | SBool b => Some (LBool b)
  end.

(** ** compilation *)
Inductive outcome (A : Type) := Done (a : A) | Error | Panic.
Arguments Done {A}. Arguments Error {A}. Arguments Panic {A}.
Definition bind {A B} (o : outcome A) (f : A -> outcome B) : outcome B :=
  match o with Done a => f a | Error => Error | Panic => Panic end.
Section Compile.
  Variable resolve : str -> str -> option str.
  (** cnv_iri_ref, 1336-1347 *)
  Definition cnv_iri_ref (i : iri_ref) : outcome str :=
    match i with
    | Iri s => Done s
    | Prefixed p l => match resolve p l with Some s => Done s | None => Error end
    end.
  (** iri_ref2iri_s, 879-886 *)
  Definition iri_ref2iri (i : iri_ref) : outcome str := match i with Iri s => Done s | Prefixed _ _ => Panic end.
  (** cnv_iri_exclusion, 1300-1311 *)
  Definition cnv_iri_exclusion (e : excl iri_ref) : outcome (excl str) :=
    match e with
    | EOne i => bind (iri_ref2iri i) (fun s => Done (EOne s))
    | EStem i => bind (iri_ref2iri i) (fun s => Done (EStem s))
    end.
  Fixpoint cnv_all {A B} (f : A -> outcome B) (l : list A) : outcome (list B) :=
    match l with
    | [] => Done []
    | a :: l => bind (f a) (fun b => bind (cnv_all f l) (fun bs => Done (b :: bs)))
    end.
  (** cnv_value, 1127-1162 *)
  Definition cnv_value (v : value iri_ref) : outcome (value str) :=
    match v with
    | VIriStem i => bind (cnv_iri_ref i) (fun s => Done (VIriStem s))
    | VIriRange None ex => bind (cnv_all cnv_iri_exclusion ex) (fun ex => Done (VIriRange None ex))
    | VIriRange (Some i) ex =>
        bind (cnv_iri_ref i) (fun s => bind (cnv_all cnv_iri_exclusion ex) (fun ex => Done (VIriRange (Some s) ex)))
    | VLitStem s => Done (VLitStem s)
    | VLitRange s ex => Done (VLitRange s ex)
    | VLang t => Done (VLang t)
    | VLangStem s => Done (VLangStem s)
    | VLangRange s ex => Done (VLangRange s ex)
    | VIri i => bind (cnv_iri_ref i) (fun s => Done (VIri s))
    | VLit l => Done (VLit l)
    end.
  Definition create_value_set (vs : list (value iri_ref)) : outcome (list (value str)) := cnv_all cnv_value vs.
End Compile.

(** ** language stems, value_set_value.rs 84-95 *)
Definition dash : N := 45%N.
(** [str::split('-')]: never empty *)
Fixpoint split (s : str) : list str :=
  match s with
  | [] => [[]]
  | c :: s => if N.eqb c dash then [] :: split s
              else match split s with p :: ps => (c :: p) :: ps | [] => [[c]] end
  end.
Fixpoint zip_all (f : str -> str -> bool) (a b : list str) : bool :=
  match a, b with
  | x :: a, y :: b => f x y && zip_all f a b
  | _, _ => true
  end.
Definition lang_stem_matches (stem tag : str) : bool :=
  let a := split stem in let b := split tag in
  if Nat.ltb (length b) (length a) then false else zip_all eq_ignore_case a b.

(** ** membership, value_set_value.rs 97-217 *)
Section Match.
  Context (L : lib).
  Definition iri_excluded (i : str) (e : excl str) : bool :=
    match e with EOne s => str_eqb i s | EStem s => starts_with i s end.
  Definition lit_excluded (l : lit) (e : excl str) : bool :=
    match e with EOne s => str_eqb (lexical_form L l) s | EStem s => starts_with (lexical_form L l) s end.
  Definition lang_excluded (g : str) (e : excl str) : bool :=
    match e with EOne s => str_eqb g s | EStem s => lang_stem_matches s g end.
  Definition obj_lang (o : obj) : option str := match o with OLit l => lang l | _ => None end.
  Definition match_value (v : value str) (o : obj) : bool :=
    match v with
    | VIriStem s => match o with OIri i => starts_with i s | _ => false end
    | VIriRange stem ex =>
        (match stem with
         | Some s => match o with OIri i => starts_with i s | _ => false end
         | None => true
         end) &&
        negb (existsb (fun e => match o with OIri i => iri_excluded i e | _ => false end) ex)
    | VLitStem s => match o with OLit l => starts_with (lexical_form L l) s | _ => false end
    | VLitRange stem ex =>
        (match stem with
         | Some s => match o with OLit l => starts_with (lexical_form L l) s | _ => false end
         | None => true
         end) &&
        negb (existsb (fun e => match o with OLit l => lit_excluded l e | _ => false end) ex)
    | VLang t => match obj_lang o with Some g => str_eqb t g | None => false end
    | VLangStem stem =>
        match obj_lang o with
        | Some g => match stem with Some s => lang_stem_matches s g | None => true end
        | None => false
        end
    | VLangRange stem ex =>
        (match stem with
         | Some s => match obj_lang o with Some g => lang_stem_matches s g | None => false end
         | None => true
         end) &&
        negb (existsb (fun e => match obj_lang o with Some g => lang_excluded g e | None => false end) ex)
    | VIri s => match o with OIri i => str_eqb i s | _ => false end
    | VLit e => match o with OLit l => match_literal L l e | _ => false end
    end.
  Definition check_value (vs : list (value str)) (o : obj) : bool := existsb (fun v => match_value v o) vs.
End Match.
