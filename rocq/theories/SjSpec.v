(* Which schemas survive being written as JSON and read back. *)

From Coq Require Import List String Ascii NArith ZArith Bool Sorting.Sorted.
From Verif Require Import SjModel.
Import ListNotations.
Open Scope string_scope.

(* ------------------------------------------------------------------ *)
(* Texts                                                                *)

Definition has (c : ascii) (s : string) : Prop := In c (list_ascii_of_string s).

Definition newline : ascii := "010".

(* Somewhere in one line there is a `<` and later a `>`. *)
Definition angled (s : string) : Prop :=
  exists a b c, s = a ++ "<" ++ b ++ ">" ++ c /\ ~ has newline b.

(* The text contains `_:`. *)
Definition blanked (s : string) : Prop := exists a b, s = a ++ "_:" ++ b.

(* JSON writes the text as it is. *)
Definition unescaped (s : string) : Prop :=
  forall c, has c s -> (32 <= N_of_ascii c)%N /\ c <> """"%char /\ c <> "\"%char.

Definition ok_opt {A : Type} (P : A -> Prop) (o : option A) : Prop :=
  match o with Some a => P a | None => True end.

Definition ok_list {A : Type} (P : A -> Prop) (o : option (list A)) : Prop :=
  ok_opt (Forall P) o.

(* The types of which the literals are numbers and truth values. *)
Definition builtin : list string :=
  ["http://www.w3.org/2001/XMLSchema#boolean"; "http://www.w3.org/2001/XMLSchema#decimal";
   "http://www.w3.org/2001/XMLSchema#double"; "http://www.w3.org/2001/XMLSchema#integer"].

(* The names of the other values of a value set. *)
Definition reserved : list string :=
  ["IriStem"; "LiteralStem"; "LanguageStem"; "IriStemRange"; "LiteralStemRange";
   "LanguageStemRange"; "Language"].

Section Spec.
Context {L : lib}.

(* ------------------------------------------------------------------ *)
(* Names                                                                *)

(* An absolute IRI. *)
Definition ok_absolute (i : iriref) : Prop :=
  match i with Iri s => iri_ok s = true | Prefixed _ _ => False end.

(* An absolute IRI, or a prefixed name that cannot be taken for one. *)
Definition ok_name (i : iriref) : Prop :=
  match i with
  | Iri s => iri_ok s = true
  | Prefixed p l => iri_ok (p ++ ":" ++ l) = false /\ ~ has ":" p
  end.

Definition ok_tag (l : string) : Prop := lang_new l = Some l.

(* A label of a shape in a reference. *)
Definition ok_label (l : label) : Prop :=
  match l with
  | LIri (Iri s) => iri_ok s = true /\ ~ angled s /\ ~ blanked s
  | LIri (Prefixed _ _) => False
  | LBNode b => ~ angled b /\ ~ has newline b
  | LStart => False
  end.

(* A label of a shape in its declaration, or in EXTENDS. *)
Definition ok_id (l : label) : Prop :=
  ok_label l /\
  match l with LIri (Iri s) => unescaped s | LBNode b => unescaped b | _ => True end.

(* A label of a triple expression, in a reference and in a declaration. *)
Definition ok_tlabel (l : tlabel) : Prop :=
  match l with TLIri (Iri s) => iri_ok s = true | _ => False end.

Definition ok_tid (l : tlabel) : Prop :=
  match l with TLIri (Iri s) => iri_ok s = true /\ unescaped s | _ => False end.

(* ------------------------------------------------------------------ *)
(* Values                                                               *)

(* A literal whose type is none of the [names] that have another meaning. *)
Definition ok_lit (names : list string) (l : lit) : Prop :=
  match l with
  | LitStr s lang => ok_opt ok_tag lang
  | LitData s (Iri t) => iri_ok t = true /\ ~ In t names
  | LitData s (Prefixed _ _) => False
  | LitNum (NumInt z) => (- 2 ^ 63 <= z < 2 ^ 63)%Z
  | LitNum (NumDec d) => parse_dec (show_dec d) = Some d
  | LitNum (NumDbl f) => parse_dbl (show_dbl f) = Some f
  | LitNum (NumOther _ _) => False
  | LitDate _ => False
  | LitBool _ => True
  | LitWrong _ _ _ => False
  end.

Definition ok_obj (names : list string) (o : objv) : Prop :=
  match o with ObjIri i => ok_absolute i | ObjLit l => ok_lit names l end.

(* No IRI and no prefixed name. *)
Definition no_name (s : string) : Prop := iri_ok s = false /\ ~ has ":" s.

Definition ok_iri_exc (e : exc iriref) : Prop :=
  match e with Whole i => ok_absolute i | Stem i => ok_name i end.

Definition ok_lit_exc (e : exc string) : Prop :=
  match e with Whole _ => True | Stem s => no_name s end.

Definition ok_lang_exc (e : exc string) : Prop :=
  match e with Whole l => ok_tag l | Stem l => no_name l /\ ok_tag l end.

Definition ok_some {A : Type} (P : A -> Prop) (o : option (list A)) : Prop :=
  match o with Some l => Forall P l | None => False end.

Definition ok_lang_stem (l : string) : Prop := l <> "" /\ ok_tag l.

Definition ok_value (v : value) : Prop :=
  match v with
  | VIriStem stem => ok_absolute stem
  | VIriRange stem es => ok_opt ok_absolute stem /\ ok_some ok_iri_exc es
  | VLitStem _ => True
  | VLitRange _ es => ok_some ok_lit_exc es
  | VLang tag => ok_tag tag
  | VLangStem stem => ok_opt ok_lang_stem stem
  | VLangRange stem es => ok_opt ok_lang_stem stem /\ ok_some ok_lang_exc es
  | VObj o => ok_obj (builtin ++ reserved) o
  end.

(* ------------------------------------------------------------------ *)
(* Facets                                                               *)

(* The order in which the facets come back. *)
Definition rank (f : facet) : nat :=
  match f with
  | FPattern _ _ => 0
  | FLength _ => 1
  | FMinLength _ => 2
  | FMaxLength _ => 3
  | FMinIn _ => 4
  | FMaxIn _ => 5
  | FMinEx _ => 6
  | FMaxEx _ => 7
  | FTotal _ => 8
  | FFraction _ => 9
  end.

Definition before (f g : facet) : Prop := rank f < rank g.

Definition ok_facet (f : facet) : Prop :=
  match f with
  | FLength n | FMinLength n | FMaxLength n | FFraction n | FTotal n => (n < 2 ^ 64)%N
  | FPattern _ _ => True
  | FMaxEx n | FMaxIn n | FMinIn n | FMinEx n => read_fnum (write_fnum n) = Ok n
  end.

Definition ok_facets (fs : list facet) : Prop :=
  fs <> [] /\ StronglySorted before fs /\ Forall ok_facet fs.

Definition ok_nodec (n : nodec) : Prop :=
  ok_opt ok_name (n_datatype n) /\
  ok_list ok_value (n_values n) /\
  ok_opt ok_facets (n_facets n).

(* ------------------------------------------------------------------ *)
(* Schemas                                                              *)

Definition ok_act (a : semact) : Prop := ok_name (a_name a).

Definition ok_ann (a : annot) : Prop := ok_name (an_pred a) /\ ok_obj builtin (an_obj a).

Definition ok_int (z : Z) : Prop := (- 2 ^ 31 <= z < 2 ^ 31)%Z.

Fixpoint ok_sexpr (e : sexpr) : Prop :=
  match e with
  | SOr l | SAnd l =>
      (fix every (l : list sexpr) : Prop :=
         match l with [] => True | e :: l => ok_sexpr e /\ every l end) l
  | SNot e => ok_sexpr e
  | SNode n => ok_nodec n
  | SShape _ extra e acts anns extends =>
      ok_list ok_name extra /\
      match e with Some e => ok_texpr e | None => True end /\
      ok_list ok_act acts /\ ok_list ok_ann anns /\ ok_list ok_id extends
  | SExternal => True
  | SRef l => ok_label l
  end
with ok_texpr (e : texpr) : Prop :=
  match e with
  | TEach id l mn mx acts anns | TOne id l mn mx acts anns =>
      ok_opt ok_tid id /\
      (fix every (l : list texpr) : Prop :=
         match l with [] => True | e :: l => ok_texpr e /\ every l end) l /\
      ok_opt ok_int mn /\ ok_opt ok_int mx /\
      ok_list ok_act acts /\ ok_list ok_ann anns
  | TTriple id _ _ pred ve mn mx acts anns =>
      ok_opt ok_tid id /\ ok_name pred /\
      match ve with Some e => ok_sexpr e | None => True end /\
      ok_opt ok_int mn /\ ok_opt ok_int mx /\
      ok_list ok_act acts /\ ok_list ok_ann anns
  | TRef l => ok_tlabel l
  end.

Definition ok_decl (d : decl) : Prop := ok_id (d_id d) /\ ok_sexpr (d_expr d).

Definition ok_import (i : import) : Prop :=
  match i with IStr _ => True | IIri _ => False end.

Definition ok_iris (s : string) : Prop := s = "" \/ iri_ok s = true.

Definition ok_prefixes (l : list (string * string)) : Prop :=
  NoDup (map fst l) /\ Forall (fun kv => ok_iris (snd kv)) l.

Definition writable (s : schema) : Prop :=
  ok_list ok_import (s_imports s) /\
  ok_opt ok_sexpr (s_start s) /\
  ok_list ok_act (s_acts s) /\
  ok_list ok_decl (s_shapes s) /\
  ok_opt ok_prefixes (s_prefixes s) /\
  ok_opt ok_iris (s_base s) /\
  s_source s = "".

(* ------------------------------------------------------------------ *)
(* What the libraries are asked for, in the theorem on what has been read *)

Record sound_lib : Prop := {
  iri_colon : forall s, iri_ok s = true -> has ":" s;
  iri_no_angle : forall s, iri_ok s = true -> ~ has "<" s;
  iri_unescaped : forall s, iri_ok s = true -> unescaped s;
  tag_again : forall s l, lang_new s = Some l -> lang_new l = Some l;
  tag_text : forall s l, lang_new s = Some l -> l <> "" /\ ~ has ":" l;
  dec_again : forall s d, parse_dec s = Some d -> parse_dec (show_dec d) = Some d;
  dbl_again : forall s f, parse_dbl s = Some f -> parse_dbl (show_dbl f) = Some f;
  fnum_again : forall j n, read_fnum j = Ok n -> read_fnum (write_fnum n) = Ok n
}.

Definition opt_list {A B : Type} (f : A -> list B) (o : option A) : list B :=
  match o with Some a => f a | None => [] end.

(* The labels of shapes in a schema. *)
Fixpoint labels (e : sexpr) : list label :=
  match e with
  | SOr l | SAnd l => flat_map labels l
  | SNot e => labels e
  | SNode _ => []
  | SShape _ _ e _ _ extends =>
      match e with Some e => tlabels e | None => [] end ++ opt_list (fun l => l) extends
  | SExternal => []
  | SRef l => [l]
  end
with tlabels (e : texpr) : list label :=
  match e with
  | TEach _ l _ _ _ _ | TOne _ l _ _ _ _ => flat_map tlabels l
  | TTriple _ _ _ _ ve _ _ _ _ => match ve with Some e => labels e | None => [] end
  | TRef _ => []
  end.

Definition schema_labels (s : schema) : list label :=
  (opt_list labels (s_start s) ++
   opt_list (flat_map (fun d => d_id d :: labels (d_expr d))) (s_shapes s))%list.

(* No IRI that is a label contains `_:`. *)
Definition clean (ls : list label) : Prop :=
  forall s, In (LIri (Iri s)) ls -> ~ blanked s.

End Spec.

(* ------------------------------------------------------------------ *)
(* JSON                                                                 *)

(* A value is inside another one. *)
Inductive inside (x : json) : json -> Prop :=
| in_here : inside x x
| in_arr (l : list json) (y : json) : In y l -> inside x y -> inside x (JArr l)
| in_obj (ms : list (string * json)) (k : string) (y : json) :
    In (k, y) ms -> inside x y -> inside x (JObj ms).

(* Somewhere there is a range of literals with a stem and without exclusions. *)
Definition bare_range (j : json) : Prop :=
  exists ms, inside (JObj ms) j /\
    In ("type", JStr "LiteralStemRange") ms /\
    (exists x, In ("stem", x) ms) /\
    forall x, ~ In ("exclusions", x) ms.
