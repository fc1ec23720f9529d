(** Value sets of ShEx, as sets of RDF terms. *)
From Coq Require Import ZArith NArith List Bool.
Import ListNotations.
From Verif Require Import NumModel LitModel LitSpec VsModel.

Inductive term := TIri (s : str) | TBnode (s : str) | TLit (t : oxlit).
Definition prefix_of (p s : str) : Prop := exists r, s = p ++ r.
Definition same_case (a b : str) : Prop := map lower a = map lower b.
(** basic filtering of RFC 4647: the range is the tag, or the tag continues with a hyphen *)
Definition lang_range (range tag : str) : Prop :=
  same_case range tag \/ prefix_of (map lower range ++ [45%N]) (map lower tag).

(** the term a literal of ShExC denotes *)
Definition denoted (e : shexc_lit) : oxlit :=
  match e with
  | SPlain s => OSimple s
  | SLang s g => OLang s g
  | STyped s DString => OSimple s
  | STyped s d | SNumeric s d => OTyped s d
  | SBool true => OTyped [116; 114; 117; 101]%N DBoolean
  | SBool false => OTyped [102; 97; 108; 115; 101]%N DBoolean
  end.
(** language tags are case-insensitive *)
Definition same_term (a b : oxlit) : Prop :=
  match a, b with
  | OLang s g, OLang s' g' => s = s' /\ same_case g g'
  | _, _ => a = b
  end.
Definition term_iri (t : term) (P : str -> Prop) : Prop := match t with TIri s => P s | _ => False end.
Definition term_text (t : term) (P : str -> Prop) : Prop := match t with TLit t => P (term_lexical t) | _ => False end.
Definition term_lang (t : term) (P : str -> Prop) : Prop := match t with TLit (OLang _ g) => P g | _ => False end.
Definition any {A} (ex : list (excl A)) (one stem : A -> Prop) : Prop :=
  exists e, In e ex /\ match e with EOne a => one a | EStem a => stem a end.

(** membership; a value keeps its literal as written *)
Inductive svalue := SV (v : value str) | SVLit (e : shexc_lit).
Definition member (v : svalue) (t : term) : Prop :=
  match v with
  | SV (VIri s) => t = TIri s
  | SVLit e => match t with TLit t => same_term (denoted e) t | _ => False end
  | SV (VIriStem s) => term_iri t (prefix_of s)
  | SV (VIriRange stem ex) =>
      term_iri t (fun i => match stem with Some s => prefix_of s i | None => True end /\ ~ any ex (fun x => i = x) (fun x => prefix_of x i))
  | SV (VLitStem s) => term_text t (prefix_of s)
  | SV (VLitRange stem ex) =>
      term_text t (fun i => match stem with Some s => prefix_of s i | None => True end /\ ~ any ex (fun x => i = x) (fun x => prefix_of x i))
  | SV (VLang g) => term_lang t (same_case g)
  | SV (VLangStem stem) => term_lang t (fun g => match stem with Some s => lang_range s g | None => True end)
  | SV (VLangRange stem ex) =>
      term_lang t (fun g => match stem with Some s => lang_range s g | None => True end /\ ~ any ex (fun x => same_case x g) (fun x => lang_range x g))
  | SV (VLit _) => False
  end.

(** reading the data and the schema *)
Definition read_term (L : lib) (t : term) : option obj :=
  match t with
  | TIri s => Some (OIri s)
  | TBnode s => Some (OBnode s)
  | TLit t => match of_term L t with Some l => Some (OLit l) | None => None end
  end.
(** tags of a schema are normalised *)
Definition norm_excl (L : lib) (e : excl str) : option (excl str) :=
  match e with EOne g => option_map EOne (lang_new L g) | EStem g => option_map EStem (lang_new L g) end.
Inductive reads (L : lib) : svalue -> value str -> Prop :=
| rd_iri s : reads L (SV (VIri s)) (VIri s)
| rd_lit e l : read_lit L e = Some l -> reads L (SVLit e) (VLit l)
| rd_iri_stem s : reads L (SV (VIriStem s)) (VIriStem s)
| rd_iri_range s ex : reads L (SV (VIriRange s ex)) (VIriRange s ex)
| rd_lit_stem s : reads L (SV (VLitStem s)) (VLitStem s)
| rd_lit_range s ex : reads L (SV (VLitRange s ex)) (VLitRange s ex)
| rd_lang g g' : lang_new L g = Some g' -> reads L (SV (VLang g)) (VLang g')
| rd_lang_stem g g' : lang_new L g = Some g' -> reads L (SV (VLangStem (Some g))) (VLangStem (Some g'))
| rd_lang_any : reads L (SV (VLangStem None)) (VLangStem None)
| rd_lang_range g g' ex ex' : lang_new L g = Some g' -> Forall2 (fun e e' => norm_excl L e = Some e') ex ex' ->
    reads L (SV (VLangRange (Some g) ex)) (VLangRange (Some g') ex')
| rd_lang_range_any ex ex' : Forall2 (fun e e' => norm_excl L e = Some e') ex ex' ->
    reads L (SV (VLangRange None ex)) (VLangRange None ex').

(** contract of normalising tags: only the case changes, and it depends on nothing but the tag up to case *)
Definition tags_ok (L : lib) : Prop :=
  (forall t g, lang_new L t = Some g -> same_case g t) /\
  (forall t t', same_case t t' -> lang_new L t = lang_new L t').
(** a ranges without wildcard, or whose wildcard meets a node of its kind *)
Definition kind_matches (v : svalue) (t : term) : Prop :=
  match v with
  | SV (VIriRange None _) => match t with TIri _ => True | _ => False end
  | SV (VLitRange None _) => match t with TLit _ => True | _ => False end
  | SV (VLangRange None _) => match t with TLit (OLang _ _) => True | _ => False end
  | _ => True
  end.
(** literals that are compared as terms: the datatype keeps the text, numbers are well-typed *)
Definition comparable_lit (L : lib) (e : shexc_lit) : Prop :=
  match e with
  | STyped s d | SNumeric s d => keeps d /\ d <> DString /\ d <> DLangString /\ of_term L (OTyped s d) = Some (LTyped s d)
  | SBool _ => False
  | _ => True
  end.

(** what the names of a value set stand for *)
Definition plain_exclusions (v : value iri_ref) : Prop :=
  match v with
  | VIriRange _ ex => Forall (fun e => match e with EOne i | EStem i => exists s, i = Iri s end) ex
  | _ => True
  end.
Definition iri_denotes (resolve : str -> str -> option str) (i : iri_ref) (s : str) : Prop :=
  match i with Iri x => x = s | Prefixed p l => resolve p l = Some s end.
Inductive resolved (resolve : str -> str -> option str) : value iri_ref -> value str -> Prop :=
| rs_stem i s : iri_denotes resolve i s -> resolved resolve (VIriStem i) (VIriStem s)
| rs_range i s ex ex' : iri_denotes resolve i s -> Forall2 (resolved_excl resolve) ex ex' -> resolved resolve (VIriRange (Some i) ex) (VIriRange (Some s) ex')
| rs_any ex ex' : Forall2 (resolved_excl resolve) ex ex' -> resolved resolve (VIriRange None ex) (VIriRange None ex')
| rs_lit_stem s : resolved resolve (VLitStem s) (VLitStem s)
| rs_lit_range s ex : resolved resolve (VLitRange s ex) (VLitRange s ex)
| rs_lang g : resolved resolve (VLang g) (VLang g)
| rs_lang_stem g : resolved resolve (VLangStem g) (VLangStem g)
| rs_lang_range g ex : resolved resolve (VLangRange g ex) (VLangRange g ex)
| rs_iri i s : iri_denotes resolve i s -> resolved resolve (VIri i) (VIri s)
| rs_lit l : resolved resolve (VLit l) (VLit l)
with resolved_excl (resolve : str -> str -> option str) : excl iri_ref -> excl str -> Prop :=
| re_one i s : iri_denotes resolve i s -> resolved_excl resolve (EOne i) (EOne s)
| re_stem i s : iri_denotes resolve i s -> resolved_excl resolve (EStem i) (EStem s).
