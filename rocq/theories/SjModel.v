(* Writing ShEx schemas as JSON and reading them back.

   The writer and the reader are the `Serialize` and `Deserialize` instances of
   the syntax tree of shex_ast (shex_ast/src/ast), partly written by hand and
   partly derived.  The texts are written and read by serde_json; the model
   starts and ends at JSON values.

   Simplifications.
   - Texts are lists of bytes (Rust strings are UTF-8).
   - The syntax of IRIs (NamedNode::new of oxrdf), the normalisation of language
     tags (Lang::new), the texts of decimals and doubles and the JSON forms of the
     numbers of facets are parameters, gathered in the class [lib].
   - Dates and the numbers of the derived integer types are kept by their text.
   - If several members of an object are wrong, the model reports one of them.
     All the errors of serde are one value, [Err]; [Panic] is a panic.
   - The names of the variants are read as texts, not as indices.
   - A text that serde_json escapes when it is written (a quotation mark, a
     backslash or a control character) cannot be borrowed when it is read. *)

From Coq Require Import List String Ascii NArith ZArith Bool Decimal DecimalString.
Import ListNotations.
Open Scope string_scope.

(* ------------------------------------------------------------------ *)
(* JSON values.  [JReal] is a number with a fraction or an exponent.    *)

Inductive json : Type :=
| JNull
| JBool (b : bool)
| JInt (z : Z)
| JReal (s : string)
| JStr (s : string)
| JArr (l : list json)
| JObj (ms : list (string * json)).

Inductive res (A : Type) : Type :=
| Ok (a : A)
| Err
| Panic.
Arguments Ok {A} _.
Arguments Err {A}.
Arguments Panic {A}.

Definition rbind {A B : Type} (x : res A) (f : A -> res B) : res B :=
  match x with Ok a => f a | Err => Err | Panic => Panic end.

Definition rmap {A B : Type} (f : A -> B) (x : res A) : res B :=
  rbind x (fun a => Ok (f a)).

Definition of_opt {A : Type} (x : option A) : res A :=
  match x with Some a => Ok a | None => Err end.

Notation "x <- e ; f" := (rbind e (fun x => f)) (at level 61, e at next level, right associativity).

(* ------------------------------------------------------------------ *)
(* What the model takes from libraries:
   - dec, dbl: the decimals of rust_decimal and f64, with to_string and from_str;
   - fnum: the numbers of facets, written as JSON values and read from them
     (rudof_rdf/src/rdf_core/term/literal/numeric_literal.rs:456-506);
   - iri_ok: whether NamedNode::new accepts the text (rudof_iri/src/iri/iris.rs:319-326);
   - lang_new: Lang::new (rudof_rdf/src/rdf_core/term/literal/lang.rs:26-42). *)
Class lib : Type := Lib {
  dec : Type;
  dbl : Type;
  fnum : Type;
  show_dec : dec -> string;
  parse_dec : string -> option dec;
  show_dbl : dbl -> string;
  parse_dbl : string -> option dbl;
  write_fnum : fnum -> json;
  read_fnum : json -> res fnum;
  iri_ok : string -> bool;
  lang_new : string -> option string
}.

(* ------------------------------------------------------------------ *)
(* The syntax tree                                                      *)

(* prefixmap/src/iri/iri_ref.rs:13-16 *)
Inductive iriref : Type := Iri (s : string) | Prefixed (p l : string).

(* The integer types other than xsd:integer, and xsd:float
   (rudof_rdf/src/rdf_core/term/literal/numeric_literal.rs). *)
Inductive numkind : Type :=
| KLong | KFloat | KByte | KShort | KNonNeg | KULong | KUInt | KUShort | KUByte
| KPos | KNeg | KNonPos.

(* shex_ast/src/ast/shape_expr_label.rs:18-22 *)
Inductive label : Type := LIri (i : iriref) | LBNode (b : string) | LStart.

(* shex_ast/src/ast/triple_expr_label.rs:12-15 *)
Inductive tlabel : Type := TLIri (i : iriref) | TLBNode (b : string).

(* shex_ast/src/ast/iri_or_str.rs:13-16 *)
Inductive import : Type := IStr (s : string) | IIri (i : iriref).

(* shex_ast/src/ast/{iri,literal,language}_exclusion.rs: one exact value or a stem *)
Inductive exc (A : Type) : Type := Whole (a : A) | Stem (a : A).
Arguments Whole {A} _.
Arguments Stem {A} _.

(* shex_ast/src/ast/node_kind.rs:7-12 *)
Inductive nodekind : Type := NIri | NBNode | NNonLiteral | NLiteral.

(* shex_ast/src/ast/sem_act.rs:6-11 *)
Record semact : Type := { a_name : iriref; a_code : option string }.

Section Tree.
Context {L : lib}.

(* rudof_rdf/src/rdf_core/term/literal/numeric_literal.rs *)
Inductive number : Type :=
| NumInt (z : Z)
| NumDec (d : dec)
| NumDbl (f : dbl)
| NumOther (k : numkind) (text : string).

(* rudof_rdf/src/rdf_core/term/literal/literal.rs:163-190 *)
Inductive lit : Type :=
| LitStr (s : string) (lang : option string)
| LitData (s : string) (dt : iriref)
| LitNum (n : number)
| LitDate (text : string)
| LitBool (b : bool)
| LitWrong (s : string) (dt : iriref) (error : string).

(* shex_ast/src/ast/object_value.rs:32-36 *)
Inductive objv : Type := ObjIri (i : iriref) | ObjLit (l : lit).

(* shex_ast/src/ast/value_set_value.rs:21-48; a stem [None] is the wildcard *)
Inductive value : Type :=
| VIriStem (stem : iriref)
| VIriRange (stem : option iriref) (es : option (list (exc iriref)))
| VLitStem (stem : string)
| VLitRange (stem : option string) (es : option (list (exc string)))
| VLang (tag : string)
| VLangStem (stem : option string)
| VLangRange (stem : option string) (es : option (list (exc string)))
| VObj (o : objv).

(* shex_ast/src/ast/xs_facet.rs:14-17, string_facet.rs, numeric_facet.rs *)
Inductive facet : Type :=
| FLength (n : N)
| FMinLength (n : N)
| FMaxLength (n : N)
| FPattern (s : string) (flags : option string)
| FFraction (n : N)
| FTotal (n : N)
| FMaxEx (n : fnum)
| FMaxIn (n : fnum)
| FMinIn (n : fnum)
| FMinEx (n : fnum).

(* shex_ast/src/ast/node_constraint.rs:16-28 *)
Record nodec : Type := {
  n_kind : option nodekind;
  n_datatype : option iriref;
  n_facets : option (list facet);
  n_values : option (list value)
}.

(* shex_ast/src/ast/annotation.rs:16-19 *)
Record annot : Type := { an_pred : iriref; an_obj : objv }.

(* shex_ast/src/ast/shape_expr.rs:38-60 with shape.rs:10-28, and
   triple_expr.rs:15-88 *)
Inductive sexpr : Type :=
| SOr (l : list sexpr)
| SAnd (l : list sexpr)
| SNot (e : sexpr)
| SNode (n : nodec)
| SShape (closed : option bool) (extra : option (list iriref)) (e : option texpr)
    (acts : option (list semact)) (anns : option (list annot))
    (extends : option (list label))
| SExternal
| SRef (l : label)
with texpr : Type :=
| TEach (id : option tlabel) (l : list texpr) (mn mx : option Z)
    (acts : option (list semact)) (anns : option (list annot))
| TOne (id : option tlabel) (l : list texpr) (mn mx : option Z)
    (acts : option (list semact)) (anns : option (list annot))
| TTriple (id : option tlabel) (negated inverse : option bool) (pred : iriref)
    (ve : option sexpr) (mn mx : option Z)
    (acts : option (list semact)) (anns : option (list annot))
| TRef (l : tlabel).

(* shex_ast/src/ast/shape_decl.rs:11-26 *)
Record decl : Type := {
  d_type : string;
  d_id : label;
  d_abstract : bool;
  d_expr : sexpr
}.

(* shex_ast/src/ast/schema.rs:15-48; the prefix map is the list of its
   entries, the source IRI is its text *)
Record schema : Type := {
  s_context : string;
  s_type : string;
  s_imports : option (list import);
  s_start : option sexpr;
  s_acts : option (list semact);
  s_shapes : option (list decl);
  s_prefixes : option (list (string * string));
  s_base : option string;
  s_source : string
}.

(* ------------------------------------------------------------------ *)
(* Writing                                                              *)

(* A member that is left out if its value is missing
   (skip_serializing_if = Option::is_none). *)
Definition memb {A : Type} (k : string) (w : A -> json) (o : option A)
  : list (string * json) :=
  match o with Some a => [(k, w a)] | None => [] end.

Definition w_list {A : Type} (w : A -> json) (l : list A) : json := JArr (map w l).

(* prefixmap/src/iri/iri_ref.rs:124-141: String::from and Display agree *)
Definition show_iri (i : iriref) : string :=
  match i with Iri s => s | Prefixed p l => p ++ ":" ++ l end.

Definition w_iri (i : iriref) : json := JStr (show_iri i).

(* shex_ast/src/ast/bnode.rs:28-32, shape_expr_label.rs:98-112 *)
Definition show_label (l : label) : string :=
  match l with
  | LIri i => show_iri i
  | LBNode b => "_:" ++ b
  | LStart => "START"
  end.

Definition w_label (l : label) : json := JStr (show_label l).

(* shex_ast/src/ast/triple_expr_label.rs:45-59 *)
Definition show_tlabel (l : tlabel) : string :=
  match l with TLIri i => show_iri i | TLBNode b => "_:" ++ b end.

Definition w_tlabel (l : tlabel) : json := JStr (show_tlabel l).

(* shex_ast/src/ast/mod.rs:57-74 *)
Definition xsd (s : string) : string := "http://www.w3.org/2001/XMLSchema#" ++ s.

(* shex_ast/src/ast/object_value.rs:168-186 *)
Definition kind_type (k : numkind) : string :=
  match k with
  | KLong => xsd "long" | KFloat => xsd "float" | KByte => xsd "byte"
  | KShort => xsd "short" | KNonNeg => xsd "nonNegativeInteger"
  | KULong => xsd "unsignedLong" | KUInt => xsd "unsignedInt"
  | KUShort => xsd "unsignedShort" | KUByte => xsd "unsignedByte"
  | KPos => xsd "positiveInteger" | KNeg => xsd "negativeInteger"
  | KNonPos => xsd "nonPositiveInteger"
  end.

Definition number_type (n : number) : string :=
  match n with
  | NumInt _ => xsd "integer"
  | NumDec _ => xsd "decimal"
  | NumDbl _ => xsd "double"
  | NumOther k _ => kind_type k
  end.

Definition show_int (z : Z) : string := NilZero.string_of_int (Z.to_int z).

Definition show_number (n : number) : string :=
  match n with
  | NumInt z => show_int z
  | NumDec d => show_dec d
  | NumDbl f => show_dbl f
  | NumOther _ t => t
  end.

(* shex_ast/src/ast/object_value.rs:111-166 *)
Definition w_lit (l : lit) : json :=
  match l with
  | LitBool b =>
      JObj [("type", JStr (xsd "boolean")); ("value", JStr (if b then "true" else "false"))]
  | LitNum n =>
      JObj [("type", JStr (number_type n)); ("value", JStr (show_number n))]
  | LitDate t =>
      JObj [("type", JStr (xsd "datetime")); ("value", JStr t)]
  | LitStr s lang =>
      JObj (memb "language" JStr lang ++ [("value", JStr s)])
  | LitData s dt =>
      JObj [("type", w_iri dt); ("value", JStr s)]
  | LitWrong s dt e =>
      JObj [("type", w_iri dt); ("value", JStr s); ("error", JStr e)]
  end.

Definition w_obj (o : objv) : json :=
  match o with ObjIri i => w_iri i | ObjLit l => w_lit l end.

(* iri_exclusion.rs, literal_exclusion.rs, language_exclusion.rs: Serialize *)
Definition w_exc {A : Type} (name : string) (w : A -> json) (e : exc A) : json :=
  match e with
  | Whole a => w a
  | Stem a => JObj [("type", JStr name); ("stem", w a)]
  end.

Definition wildcard : json := JObj [("type", JStr "Wildcard")].

(* iri_ref_or_wildcard.rs, string_or_wildcard.rs: Serialize *)
Definition w_wild {A : Type} (w : A -> json) (o : option A) : json :=
  match o with Some a => w a | None => wildcard end.

(* lang_or_wildcard.rs: Serialize *)
Definition w_lang_wild (o : option string) : json :=
  match o with Some l => JStr l | None => JStr "" end.

(* Serialize of Option<Vec<_>> *)
Definition w_opt_list {A : Type} (w : A -> json) (o : option (list A)) : json :=
  match o with Some l => w_list w l | None => JNull end.

(* shex_ast/src/ast/value_set_value.rs:203-257 *)
Definition w_value (v : value) : json :=
  match v with
  | VObj o => w_obj o
  | VLang tag => JObj [("type", JStr "Language"); ("languageTag", JStr tag)]
  | VIriStem stem => JObj [("type", JStr "IriStem"); ("stem", w_iri stem)]
  | VIriRange stem es =>
      JObj [("type", JStr "IriStemRange"); ("stem", w_wild w_iri stem);
            ("exclusions", w_opt_list (w_exc "IriStem" w_iri) es)]
  | VLangStem stem => JObj [("type", JStr "LanguageStem"); ("stem", w_lang_wild stem)]
  | VLangRange stem es =>
      JObj [("type", JStr "LanguageStemRange"); ("stem", w_lang_wild stem);
            ("exclusions", w_opt_list (w_exc "LanguageStem" JStr) es)]
  | VLitStem stem => JObj [("type", JStr "LiteralStem"); ("stem", JStr stem)]
  | VLitRange stem es =>
      JObj [("type", JStr "LiteralStemRange"); ("stem", w_wild JStr stem);
            ("exclusions", w_opt_list (w_exc "LiteralStem" JStr) es)]
  end.

(* node_kind.rs:14-23, in lower case (node_constraint.rs:188) *)
Definition show_kind (k : nodekind) : string :=
  match k with
  | NIri => "iri" | NBNode => "bnode" | NNonLiteral => "nonliteral" | NLiteral => "literal"
  end.

Definition w_nat (n : N) : json := JInt (Z.of_N n).

(* node_constraint.rs:202-230 *)
Definition w_facet (f : facet) : list (string * json) :=
  match f with
  | FLength n => [("length", w_nat n)]
  | FMinLength n => [("minlength", w_nat n)]
  | FMaxLength n => [("maxlength", w_nat n)]
  | FPattern s flags => ("pattern", JStr s) :: memb "flags" JStr flags
  | FFraction n => [("fractiondigits", w_nat n)]
  | FTotal n => [("totaldigits", w_nat n)]
  | FMaxEx n => [("maxexclusive", write_fnum n)]
  | FMaxIn n => [("maxinclusive", write_fnum n)]
  | FMinIn n => [("mininclusive", write_fnum n)]
  | FMinEx n => [("minexclusive", write_fnum n)]
  end.

Definition w_facets (o : option (list facet)) : list (string * json) :=
  match o with Some fs => flat_map w_facet fs | None => [] end.

(* node_constraint.rs:172-236 *)
Definition w_nodec (n : nodec) : list (string * json) :=
  memb "nodeKind" (fun k => JStr (show_kind k)) (n_kind n) ++
  memb "datatype" w_iri (n_datatype n) ++
  memb "values" (w_list w_value) (n_values n) ++
  w_facets (n_facets n).

(* sem_act.rs:5-11 *)
Definition w_act (a : semact) : json :=
  JObj (("name", w_iri (a_name a)) :: memb "code" JStr (a_code a)).

(* annotation.rs:60-71 *)
Definition w_ann (a : annot) : json :=
  JObj [("type", JStr "Annotation"); ("predicate", w_iri (an_pred a));
        ("object", w_obj (an_obj a))].

(* shape_expr.rs:12-81 and triple_expr.rs:13-88, 551-580: the variant is the
   first member; references are written as texts *)
Fixpoint w_sexpr (e : sexpr) : json :=
  match e with
  | SOr l => JObj [("type", JStr "ShapeOr"); ("shapeExprs", JArr (map w_sexpr l))]
  | SAnd l => JObj [("type", JStr "ShapeAnd"); ("shapeExprs", JArr (map w_sexpr l))]
  | SNot e => JObj [("type", JStr "ShapeNot"); ("shapeExpr", w_sexpr e)]
  | SNode n => JObj (("type", JStr "NodeConstraint") :: w_nodec n)
  | SShape closed extra e acts anns extends =>
      JObj (("type", JStr "Shape") ::
            memb "closed" JBool closed ++
            memb "extra" (w_list w_iri) extra ++
            memb "expression" w_texpr e ++
            memb "semActs" (w_list w_act) acts ++
            memb "annotations" (w_list w_ann) anns ++
            memb "extends" (w_list w_label) extends)
  | SExternal => JObj [("type", JStr "ShapeExternal")]
  | SRef l => w_label l
  end
with w_texpr (e : texpr) : json :=
  match e with
  | TEach id l mn mx acts anns =>
      JObj (("type", JStr "EachOf") ::
            memb "id" w_tlabel id ++
            ("expressions", JArr (map w_texpr l)) ::
            memb "min" JInt mn ++ memb "max" JInt mx ++
            memb "semActs" (w_list w_act) acts ++
            memb "annotations" (w_list w_ann) anns)
  | TOne id l mn mx acts anns =>
      JObj (("type", JStr "OneOf") ::
            memb "id" w_tlabel id ++
            ("expressions", JArr (map w_texpr l)) ::
            memb "min" JInt mn ++ memb "max" JInt mx ++
            memb "semActs" (w_list w_act) acts ++
            memb "annotations" (w_list w_ann) anns)
  | TTriple id negated inverse pred ve mn mx acts anns =>
      JObj (("type", JStr "TripleConstraint") ::
            memb "id" w_tlabel id ++
            memb "negated" JBool negated ++
            memb "inverse" JBool inverse ++
            ("predicate", w_iri pred) ::
            memb "valueExpr" w_sexpr ve ++
            memb "min" JInt mn ++ memb "max" JInt mx ++
            memb "semActs" (w_list w_act) acts ++
            memb "annotations" (w_list w_ann) anns)
  | TRef l => w_tlabel l
  end.

(* shape_decl.rs:10-26 *)
Definition w_decl (d : decl) : json :=
  JObj [("type", JStr (d_type d)); ("id", w_label (d_id d));
        ("abstract", JBool (d_abstract d)); ("shapeExpr", w_sexpr (d_expr d))].

(* iri_or_str.rs:62-70 *)
Definition w_import (i : import) : json :=
  match i with IStr s => JStr s | IIri i => w_iri i end.

(* prefixmap/src/prefix_map.rs:54-62 *)
Definition w_prefixes (l : list (string * string)) : json :=
  JObj (map (fun kv => (fst kv, JStr (snd kv))) l).

(* schema.rs:14-48: the source IRI is not written *)
Definition w_schema (s : schema) : json :=
  JObj (("@context", JStr (s_context s)) ::
        ("type", JStr (s_type s)) ::
        memb "imports" (w_list w_import) (s_imports s) ++
        memb "start" w_sexpr (s_start s) ++
        memb "startActs" (w_list w_act) (s_acts s) ++
        memb "shapes" (w_list w_decl) (s_shapes s) ++
        memb "prefixmap" w_prefixes (s_prefixes s) ++
        memb "base" JStr (s_base s)).

(* ------------------------------------------------------------------ *)
(* Reading                                                              *)

Definition is_nil {A : Type} (l : list A) : bool :=
  match l with [] => true | _ => false end.

(* The member with a key: none, one, or an error if there are two
   (duplicate_field). *)
Fixpoint field {X A : Type} (k : string) (read : X -> res A) (ms : list (string * X))
  : res (option A) :=
  match ms with
  | [] => Ok None
  | (k', x) :: ms =>
      if String.eqb k k' then
        if existsb (fun m => String.eqb k (fst m)) ms then Err
        else rmap Some (read x)
      else field k read ms
  end.

Definition needed {A : Type} (x : res (option A)) : res A :=
  o <- x ; of_opt o.

(* All the keys are known (unknown_field otherwise). *)
Definition known {X : Type} (ks : list string) (ms : list (string * X)) : res unit :=
  if forallb (fun m => existsb (String.eqb (fst m)) ks) ms then Ok tt else Err.

(* An optional field of a derived struct; null is None. *)
Definition ofield {X A : Type} (k : string) (raw : X -> json) (read : X -> res A)
  (ms : list (string * X)) : res (option A) :=
  o <- field k (fun x => match raw x with JNull => Ok None | _ => rmap Some (read x) end) ms ;
  Ok (match o with Some v => v | None => None end).

Definition r_str (j : json) : res string :=
  match j with JStr s => Ok s | _ => Err end.

Definition r_bool (j : json) : res bool :=
  match j with JBool b => Ok b | _ => Err end.

Fixpoint all {A : Type} (l : list (res A)) : res (list A) :=
  match l with
  | [] => Ok []
  | x :: l => a <- x ; r <- all l ; Ok (a :: r)
  end.

Definition r_list {A : Type} (read : json -> res A) (j : json) : res (list A) :=
  match j with JArr l => all (map read l) | _ => Err end.

(* usize and i32 on a 64 bit machine *)
Definition r_usize (j : json) : res N :=
  match j with
  | JInt z => if (0 <=? z)%Z && (z <? 2 ^ 64)%Z then Ok (Z.to_N z) else Err
  | _ => Err
  end.

Definition r_i32 (j : json) : res Z :=
  match j with
  | JInt z => if (- 2 ^ 31 <=? z)%Z && (z <? 2 ^ 31)%Z then Ok z else Err
  | _ => Err
  end.

(* FromStr and TryFrom<&str> of IriRef (prefixmap/src/iri/iri_ref.rs:91-105) *)
Definition iri_from_str (s : string) : res iriref :=
  if iri_ok s then Ok (Iri s) else Err.

(* splitn(2, ':') *)
Fixpoint split_colon (s : string) : option (string * string) :=
  match s with
  | "" => None
  | String c s =>
      if Ascii.eqb c ":" then Some ("", s)
      else match split_colon s with
           | Some (p, l) => Some (String c p, l)
           | None => None
           end
  end.

(* Deserialize of IriRef (prefixmap/src/iri/visitor.rs:8-43) *)
Definition iri_visit (s : string) : res iriref :=
  if iri_ok s then Ok (Iri s)
  else match split_colon s with
       | Some (p, l) => Ok (Prefixed p l)
       | None => Err
       end.

Definition r_iri (j : json) : res iriref := s <- r_str j ; iri_visit s.

(* Deserialize of IriS (rudof_iri/src/iri/visitor.rs:8-43) *)
Definition r_iris (j : json) : res string :=
  s <- r_str j ;
  if String.eqb s "" then Ok "" else if iri_ok s then Ok s else Err.

(* The part of a text before the first end of line. *)
Fixpoint to_eol (s : string) : string :=
  match s with
  | "" => ""
  | String c s => if Ascii.eqb c "010" then "" else String c (to_eol s)
  end.

(* The part of a text before its last `>`. *)
Fixpoint before_gt (s : string) : option string :=
  match s with
  | "" => None
  | String c s =>
      match before_gt s with
      | Some t => Some (String c t)
      | None => if Ascii.eqb c ">" then Some "" else None
      end
  end.

(* The first group of the first match of the expression `<(.X)>` where X is a
   star: from the first `<` after which a `>` follows in the line, up to the last
   such `>` (shape_expr_label.rs:76-77). *)
Fixpoint angle (s : string) : option string :=
  match s with
  | "" => None
  | String c s' =>
      if Ascii.eqb c "<" then
        match before_gt (to_eol s') with
        | Some t => Some t
        | None => angle s'
        end
      else angle s'
  end.

(* The first group of the first match of `_:(.X)`, X a star
   (shape_expr_label.rs:83-84). *)
Fixpoint blank (s : string) : option string :=
  match s with
  | "" => None
  | String c s' =>
      if Ascii.eqb c "_" then
        match s' with
        | String d s'' => if Ascii.eqb d ":" then Some (to_eol s'') else blank s'
        | "" => None
        end
      else blank s'
  end.

(* shape_expr_label.rs:72-96 *)
Definition label_from_str (s : string) : res label :=
  match angle s with
  | Some t => if iri_ok t then Ok (LIri (Iri t)) else Err
  | None =>
      match blank s with
      | Some b => Ok (LBNode b)
      | None => if iri_ok s then Ok (LIri (Iri s)) else Err
      end
  end.

(* serde_json writes this character with an escape. *)
Definition escaped (c : ascii) : bool :=
  (N_of_ascii c <? 32)%N || Ascii.eqb c """" || Ascii.eqb c "\".

Fixpoint plain (s : string) : bool :=
  match s with "" => true | String c s => negb (escaped c) && plain s end.

(* Deserialize with try_from = &str: the text must be borrowed *)
Definition r_borrowed (j : json) : res string :=
  s <- r_str j ; if plain s then Ok s else Err.

Definition r_label (j : json) : res label := s <- r_borrowed j ; label_from_str s.

(* triple_expr_label.rs:36-43 *)
Definition tlabel_from_str (s : string) : res tlabel :=
  rmap TLIri (iri_from_str s).

Definition r_tlabel (j : json) : res tlabel := s <- r_borrowed j ; tlabel_from_str s.

(* isize::from_str: an optional sign and decimal digits *)
Definition parse_int (s : string) : option Z :=
  let digits := match s with String "+" (String c r) =>
                  if Ascii.eqb c "-" then "" else String c r | _ => s end in
  match NilZero.int_of_string digits with
  | Some i =>
      let z := Z.of_int i in
      if (- 2 ^ 63 <=? z)%Z && (z <? 2 ^ 63)%Z then Some z else None
  | None => None
  end.

(* What is common to object_value.rs:298-380 and value_set_value.rs:700-777:
   the literal with a type, a value and a language.  [t] is None if there is no
   member type. *)
Definition r_literal (t : option string) (v : option string)
  (language tag : option string) : res lit :=
  match t with
  | None =>
      s <- of_opt v ;
      match language with
      | Some l => l <- of_opt (lang_new l) ; Ok (LitStr s (Some l))
      | None => Ok (LitStr s None)
      end
  | Some t =>
      if String.eqb t (xsd "boolean") then
        s <- of_opt v ;
        if String.eqb s "false" then Ok (LitBool false)
        else if String.eqb s "true" then Ok (LitBool true)
        else Err
      else if String.eqb t (xsd "decimal") then
        s <- of_opt v ; d <- of_opt (parse_dec s) ; Ok (LitNum (NumDec d))
      else if String.eqb t (xsd "double") then
        s <- of_opt v ; f <- of_opt (parse_dbl s) ; Ok (LitNum (NumDbl f))
      else if String.eqb t (xsd "integer") then
        s <- of_opt v ; z <- of_opt (parse_int s) ; Ok (LitNum (NumInt z))
      else
        dt <- iri_from_str t ;
        s <- of_opt v ;
        match tag with
        | Some l => l <- of_opt (lang_new l) ; Ok (LitStr s (Some l))
        | None => Ok (LitData s dt)
        end
  end.

(* object_value.rs:212-394 *)
Definition r_obj (j : json) : res objv :=
  match j with
  | JStr s => rmap ObjIri (iri_from_str s)
  | JObj ms =>
      _ <- known ["type"; "value"; "language"; "languageTag"] ms ;
      t <- field "type" r_str ms ;
      v <- field "value" r_str ms ;
      l <- field "language" r_str ms ;
      g <- field "languageTag" r_str ms ;
      rmap ObjLit (r_literal t v l g)
  | _ => Err
  end.

(* value_set_value.rs:259-263, 352-435; [None] is the wildcard *)
Definition r_stem (j : json) : res (option string) :=
  match j with
  | JStr s => Ok (Some s)
  | JObj ms =>
      _ <- known ["type"] ms ;
      t <- needed (field "type" r_str ms) ;
      if String.eqb t "Wildcard" then Ok None else Err
  | _ => Err
  end.

(* exclusion.rs:12-18.  A stem of an exclusion is an IRI if it can be read as one
   (untagged, exclusion.rs:236-241), and a literal otherwise. *)
Inductive rawexc : Type :=
| XIri (i : iriref)
| XLit (s : string)
| XLang (s : string)
| XText (s : string).

(* exclusion.rs:108-226 *)
Definition r_exc (j : json) : res rawexc :=
  match j with
  | JStr s => Ok (XText s)
  | JObj ms =>
      _ <- known ["type"; "stem"] ms ;
      t <- needed (field "type" r_str ms) ;
      s <- needed (field "stem" r_str ms) ;
      if String.eqb t "LiteralStem" then
        match iri_visit s with Ok _ => Err | _ => Ok (XLit s) end
      else if String.eqb t "LanguageStem" then
        match iri_visit s with
        | Ok _ => Err
        | _ => l <- of_opt (lang_new s) ; Ok (XLang l)
        end
      else if String.eqb t "IriStem" then
        match iri_visit s with Ok i => Ok (XIri i) | _ => Err end
      else Err
  | _ => Err
  end.

(* exclusion.rs:36-46 *)
Definition lit_exc (x : rawexc) : res (exc string) :=
  match x with
  | XLit s => Ok (Stem s)
  | XText s => Ok (Whole s)
  | _ => Err
  end.

(* exclusion.rs:48-61 *)
Definition iri_exc (x : rawexc) : res (exc iriref) :=
  match x with
  | XIri i => Ok (Stem i)
  | XText s => i <- iri_from_str s ; Ok (Whole i)
  | _ => Err
  end.

(* exclusion.rs:63-78 *)
Definition lang_exc (x : rawexc) : res (exc string) :=
  match x with
  | XLang l => Ok (Stem l)
  | XText s => l <- of_opt (lang_new s) ; Ok (Whole l)
  | _ => Err
  end.

(* value_set_value.rs:337-349 *)
Definition lang_or_wild (s : option string) : res (option string) :=
  match s with
  | Some s =>
      if String.eqb s "" then Ok None
      else l <- of_opt (lang_new s) ; Ok (Some l)
  | None => Ok None
  end.

(* value_set_value.rs:325-335 *)
Definition iri_or_wild (s : option string) : res (option iriref) :=
  match s with
  | Some s => rmap Some (iri_from_str s)
  | None => Ok None
  end.

(* The names of the types of the values that are not literals
   (value_set_value.rs:176-184) *)
Definition stem_types : list string :=
  ["IriStem"; "LanguageStem"; "LiteralStem"; "Language"; "IriStemRange";
   "LanguageStemRange"; "LiteralStemRange"].

(* value_set_value.rs:460-784 *)
Definition r_value (j : json) : res value :=
  match j with
  | JStr s => rmap (fun i => VObj (ObjIri i)) (iri_from_str s)
  | JObj ms =>
      _ <- known ["type"; "value"; "stem"; "language"; "languageTag"; "exclusions"] ms ;
      t <- field "type" r_str ms ;
      stem <- field "stem" r_stem ms ;
      v <- field "value" r_str ms ;
      l <- field "language" r_str ms ;
      g <- field "languageTag" r_str ms ;
      es <- field "exclusions" (r_list r_exc) ms ;
      let literal := rmap (fun l => VObj (ObjLit l)) (r_literal t v l g) in
      match t with
      | None => literal
      | Some t =>
          if String.eqb t "LiteralStemRange" then
            stem <- of_opt stem ;
            match es with
            | Some es => es <- all (map lit_exc es) ; Ok (VLitRange stem (Some es))
            | None => Panic
            end
          else if String.eqb t "LanguageStemRange" then
            stem <- of_opt stem ;
            es <- of_opt es ;
            es <- all (map lang_exc es) ;
            stem <- lang_or_wild stem ;
            Ok (VLangRange stem (Some es))
          else if String.eqb t "IriStemRange" then
            stem <- of_opt stem ;
            es <- of_opt es ;
            es <- all (map iri_exc es) ;
            stem <- iri_or_wild stem ;
            Ok (VIriRange stem (Some es))
          else if String.eqb t "LiteralStem" then
            stem <- of_opt stem ;
            stem <- of_opt stem ;
            Ok (VLitStem stem)
          else if String.eqb t "LanguageStem" then
            stem <- of_opt stem ;
            stem <- of_opt stem ;
            if String.eqb stem "" then Ok (VLangStem None)
            else l <- of_opt (lang_new stem) ; Ok (VLangStem (Some l))
          else if String.eqb t "Language" then
            g <- of_opt g ;
            l <- of_opt (lang_new g) ;
            Ok (VLang l)
          else if String.eqb t "IriStem" then
            stem <- of_opt stem ;
            stem <- of_opt stem ;
            rmap VIriStem (iri_from_str stem)
          else literal
      end
  | _ => Err
  end.

(* node_constraint.rs:323-334 *)
Definition r_kind (j : json) : res nodekind :=
  s <- r_str j ;
  if String.eqb s "iri" then Ok NIri
  else if String.eqb s "bnode" then Ok NBNode
  else if String.eqb s "literal" then Ok NLiteral
  else if String.eqb s "nonliteral" then Ok NNonLiteral
  else Err.

Definition nodec_keys : list string :=
  ["nodeKind"; "datatype"; "type"; "pattern"; "flags"; "length"; "minlength"; "maxlength";
   "mininclusive"; "maxinclusive"; "minexclusive"; "maxexclusive"; "totaldigits";
   "fractiondigits"; "values"].

Definition maybe {A B : Type} (f : A -> B) (o : option A) : list B :=
  match o with Some a => [f a] | None => [] end.

(* node_constraint.rs:435-490: the facets are added in a fixed order *)
Definition r_facets (ms : list (string * json)) : res (option (list facet)) :=
  pattern <- field "pattern" r_str ms ;
  flags <- field "flags" r_str ms ;
  length <- field "length" r_usize ms ;
  minlength <- field "minlength" r_usize ms ;
  maxlength <- field "maxlength" r_usize ms ;
  mininclusive <- field "mininclusive" read_fnum ms ;
  maxinclusive <- field "maxinclusive" read_fnum ms ;
  minexclusive <- field "minexclusive" read_fnum ms ;
  maxexclusive <- field "maxexclusive" read_fnum ms ;
  totaldigits <- field "totaldigits" r_usize ms ;
  fractiondigits <- field "fractiondigits" r_usize ms ;
  let fs :=
   (maybe (fun p => FPattern p flags) pattern ++
    maybe FLength length ++
    maybe FMinLength minlength ++
    maybe FMaxLength maxlength ++
    maybe FMinIn mininclusive ++
    maybe FMaxIn maxinclusive ++
    maybe FMinEx minexclusive ++
    maybe FMaxEx maxexclusive ++
    maybe FTotal totaldigits ++
    maybe FFraction fractiondigits)%list in
  Ok (if is_nil fs then None else Some fs).

(* node_constraint.rs:238-520; the variant has been taken away by the reader of
   shape expressions *)
Definition r_nodec (ms : list (string * json)) : res nodec :=
  _ <- known nodec_keys ms ;
  kind <- field "nodeKind" r_kind ms ;
  datatype <- field "datatype" r_iri ms ;
  values <- field "values" (r_list r_value) ms ;
  facets <- r_facets ms ;
  Ok {| n_kind := kind; n_datatype := datatype; n_facets := facets; n_values := values |}.

(* sem_act.rs:5-11 *)
Definition r_act (j : json) : res semact :=
  match j with
  | JObj ms =>
      name <- needed (field "name" r_iri ms) ;
      code <- ofield "code" (fun j => j) r_str ms ;
      Ok {| a_name := name; a_code := code |}
  | _ => Err
  end.

(* annotation.rs:73-170 *)
Definition r_ann (j : json) : res annot :=
  match j with
  | JObj ms =>
      _ <- known ["type"; "predicate"; "object"] ms ;
      t <- field "type" r_str ms ;
      p <- field "predicate" r_iri ms ;
      o <- field "object" r_obj ms ;
      _ <- match t with
           | Some t => if String.eqb t "Annotation" then Ok tt else Err
           | None => Ok tt
           end ;
      p <- of_opt p ;
      o <- of_opt o ;
      Ok {| an_pred := p; an_obj := o |}
  | _ => Err
  end.

(* A value with what it is when it is read as a shape expression, as a triple
   expression, and as a list of them. *)
Record read : Type := {
  x_json : json;
  x_s : res sexpr;
  x_t : res texpr;
  x_ss : res (list sexpr);
  x_ts : res (list texpr)
}.

Definition raw (ms : list (string * read)) : list (string * json) :=
  map (fun m => (fst m, x_json (snd m))) ms.

Definition on {A : Type} (f : json -> res A) (x : read) : res A := f (x_json x).

(* The members of a variant: its tag is taken away (serde(tag = type)). *)
Definition untag (ms : list (string * read)) : list (string * read) :=
  filter (fun m => negb (String.eqb "type" (fst m))) ms.

(* shape_expr.rs:36-60, shape.rs:9-28 *)
Definition s_struct (ms : list (string * read)) : res sexpr :=
  t <- needed (field "type" (on r_str) ms) ;
  let ms := untag ms in
  if String.eqb t "ShapeOr" then rmap SOr (needed (field "shapeExprs" x_ss ms))
  else if String.eqb t "ShapeAnd" then rmap SAnd (needed (field "shapeExprs" x_ss ms))
  else if String.eqb t "ShapeNot" then rmap SNot (needed (field "shapeExpr" x_s ms))
  else if String.eqb t "NodeConstraint" then rmap SNode (r_nodec (raw ms))
  else if String.eqb t "Shape" then
    closed <- ofield "closed" x_json (on r_bool) ms ;
    extra <- ofield "extra" x_json (on (r_list r_iri)) ms ;
    e <- ofield "expression" x_json x_t ms ;
    acts <- ofield "semActs" x_json (on (r_list r_act)) ms ;
    anns <- ofield "annotations" x_json (on (r_list r_ann)) ms ;
    extends <- ofield "extends" x_json (on (r_list r_label)) ms ;
    Ok (SShape closed extra e acts anns extends)
  else if String.eqb t "ShapeExternal" then Ok SExternal
  else Err.

(* triple_expr.rs:13-88; a null valueExpr is refused, since the members of a
   variant are buffered and the visitor has no visit_unit
   (serde_string_or_struct.rs:163-201) *)
Definition t_struct (ms : list (string * read)) : res texpr :=
  t <- needed (field "type" (on r_str) ms) ;
  let ms := untag ms in
  let group (make : option tlabel -> list texpr -> option Z -> option Z ->
                    option (list semact) -> option (list annot) -> texpr) :=
    id <- ofield "id" x_json (on r_tlabel) ms ;
    l <- needed (field "expressions" x_ts ms) ;
    mn <- ofield "min" x_json (on r_i32) ms ;
    mx <- ofield "max" x_json (on r_i32) ms ;
    acts <- ofield "semActs" x_json (on (r_list r_act)) ms ;
    anns <- ofield "annotations" x_json (on (r_list r_ann)) ms ;
    Ok (make id l mn mx acts anns) in
  if String.eqb t "EachOf" then group TEach
  else if String.eqb t "OneOf" then group TOne
  else if String.eqb t "TripleConstraint" then
    id <- ofield "id" x_json (on r_tlabel) ms ;
    negated <- ofield "negated" x_json (on r_bool) ms ;
    inverse <- ofield "inverse" x_json (on r_bool) ms ;
    pred <- needed (field "predicate" (on r_iri) ms) ;
    ve <- field "valueExpr" x_s ms ;
    mn <- ofield "min" x_json (on r_i32) ms ;
    mx <- ofield "max" x_json (on r_i32) ms ;
    acts <- ofield "semActs" x_json (on (r_list r_act)) ms ;
    anns <- ofield "annotations" x_json (on (r_list r_ann)) ms ;
    Ok (TTriple id negated inverse pred ve mn mx acts anns)
  else Err.

(* deserialize_string_or_struct (serde_string_or_struct.rs:21-60): a text is a
   reference *)
Fixpoint r_both (j : json) : res sexpr * res texpr :=
  match j with
  | JStr s => (rmap SRef (label_from_str s), rmap TRef (tlabel_from_str s))
  | JObj ms =>
      let ms :=
        map (fun '(k, v) =>
               let b := r_both v in
               let l := match v with JArr l => Some (map r_both l) | _ => None end in
               (k, {| x_json := v; x_s := fst b; x_t := snd b;
                      x_ss := match l with Some l => all (map fst l) | None => Err end;
                      x_ts := match l with Some l => all (map snd l) | None => Err end |}))
            ms in
      (s_struct ms, t_struct ms)
  | _ => (Err, Err)
  end.

Definition r_sexpr (j : json) : res sexpr := fst (r_both j).
Definition r_texpr (j : json) : res texpr := snd (r_both j).

(* shape_decl.rs:10-30 *)
Definition r_decl (j : json) : res decl :=
  match j with
  | JObj ms =>
      t <- needed (field "type" r_str ms) ;
      id <- needed (field "id" r_label ms) ;
      abs <- field "abstract" r_bool ms ;
      e <- needed (field "shapeExpr" r_sexpr ms) ;
      Ok {| d_type := t; d_id := id;
            d_abstract := match abs with Some b => b | None => false end;
            d_expr := e |}
  | _ => Err
  end.

(* iri_or_str.rs:72-76 *)
Definition r_import (j : json) : res import := rmap IStr (r_str j).

(* IndexMap::insert *)
Fixpoint insert (l : list (string * string)) (k v : string) : list (string * string) :=
  match l with
  | [] => [(k, v)]
  | (k', v') :: l => if String.eqb k k' then (k', v) :: l else (k', v') :: insert l k v
  end.

(* prefixmap/src/prefix_map.rs:64-90 *)
Fixpoint r_entries (acc : list (string * string)) (ms : list (string * json))
  : res (list (string * string)) :=
  match ms with
  | [] => Ok acc
  | (k, j) :: ms => v <- r_iris j ; r_entries (insert acc k v) ms
  end.

Definition r_prefixes (j : json) : res (list (string * string)) :=
  match j with JObj ms => r_entries [] ms | _ => Err end.

(* schema.rs:14-48; the source IRI is the default one, the empty text
   (rudof_iri/src/iri/iris.rs:348-352) *)
Definition r_schema (j : json) : res schema :=
  match j with
  | JObj ms =>
      context <- needed (field "@context" r_str ms) ;
      t <- needed (field "type" r_str ms) ;
      imports <- ofield "imports" (fun j => j) (r_list r_import) ms ;
      start <- ofield "start" (fun j => j) r_sexpr ms ;
      acts <- ofield "startActs" (fun j => j) (r_list r_act) ms ;
      shapes <- ofield "shapes" (fun j => j) (r_list r_decl) ms ;
      prefixes <- ofield "prefixmap" (fun j => j) r_prefixes ms ;
      base <- ofield "base" (fun j => j) r_iris ms ;
      Ok {| s_context := context; s_type := t; s_imports := imports; s_start := start;
            s_acts := acts; s_shapes := shapes; s_prefixes := prefixes; s_base := base;
            s_source := "" |}
  | _ => Err
  end.

End Tree.
