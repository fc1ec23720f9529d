(** What reading back a printed schema means.

    Nothing here refers to the printer; only the trees and tokens of PsModel,
    the grammar of PsSpec and the record of schemas are shared. *)
From Coq Require Import String List ZArith Bool.
From Verif Require Import PsModel PsSpec PpModel.
Import ListNotations.
Local Open Scope string_scope.
Local Open Scope list_scope.

(** * Other spellings of keywords *)

Fixpoint same_letters (k w : string) : Prop :=
  match k, w with
  | EmptyString, EmptyString => True
  | String a k, String b w => small a = small b /\ same_letters k w
  | _, _ => False
  end.
(** The keywords whose case does not matter.  [AND] and [ABSTRACT] are not
    among them because of the predicate [a]. *)
Definition caseless : list string :=
  ["BASE"; "PREFIX"; "IMPORT"; "START"; "EXTERNAL"; "OR"; "NOT"; "IRI"; "BNODE"; "NONLITERAL";
   "LITERAL"; "LENGTH"; "MINLENGTH"; "MAXLENGTH"; "EXTENDS"].
Definition spelled (t u : tok) : Prop :=
  t = u \/ exists k w, t = TWord k /\ u = TWord w /\ In k caseless /\ same_letters k w.

(** * What can be printed and read back *)

Section Printable.
(** How an IRI is shortened, how a name is completed, how an IRI is resolved
    against a base; see PpModel. *)
Variable qualify : nat -> option (string * option nat).
Variable type_iri : nat.
Variable lit_prints : nat -> bool.
Variable print_values : nat -> option nat.
Variable expand : nat -> option nat -> nat.
Variable rebase : nat -> nat -> option nat.
Variable deref_values : option nat -> option prefixes -> nat -> option nat.
Variable deref_lit : option nat -> option prefixes -> nat -> option nat.
Variable base : option nat.
Variable pm : option prefixes.

Definition declared (p : string) (ns : nat) : Prop :=
  match pm with Some l => In (p, ns) l | None => False end.
(** The IRI a name stands for. *)
Definition denotes (r : iriref) (i : nat) : Prop :=
  match r with
  | RIri j => j = i
  | RType => i = type_iri
  | RName p l => exists ns, declared p ns /\ i = expand ns l
  end.
(** The IRI is shortened to a name that stands for it, with a prefix that is
    read as a prefix (see C81); and it is absolute, if there is a base. *)
Definition faithful (i : nat) : Prop :=
  match qualify i with Some (p, l) => clear p /\ denotes (RName p l) i | None => True end
  /\ match base with Some b => rebase b i = Some i | None => True end.

Definition resolved (r : iriref) : Prop := exists i, r = RIri i /\ faithful i.
Definition label_fine (l : label) : Prop := match l with LIri r => resolved r | LBnode _ => True end.
Definition annot_fine (a : annot) : Prop :=
  resolved (fst a) /\ match snd a with
                      | VIri r => resolved r
                      | VLit l => lit_prints l = true /\ deref_lit base pm l = Some l
                      end.
Definition act_fine (a : act) : Prop := resolved (fst a).
(** Present means not empty. *)
Definition some_of {A} (P : A -> Prop) (o : option (list A)) : Prop :=
  match o with None => True | Some l => l <> [] /\ Forall P l end.

(** A node constraint says one thing: a kind, a datatype, a value set or
    nothing, and at most one facet, which is about strings. *)
Definition one_string (f : facet) : Prop := is_string f /\ facet_fits f.
Definition at_most_one (fs : option (list facet)) : Prop :=
  match fs with None => True | Some [f] => one_string f | _ => False end.
Definition node_fine (c : nodec) : Prop :=
  match c with
  | mkNodec (Some _) None None fs => at_most_one fs
  | mkNodec None (Some d) None fs => resolved d /\ at_most_one fs
  | mkNodec None None (Some v) fs =>
      (exists w, print_values v = Some w /\ deref_values base pm w = Some v) /\ at_most_one fs
  | mkNodec None None None (Some [f]) => one_string f
  | _ => False
  end.

Definition rank (e : se) : nat := match e with SOr _ => 3 | SAnd _ => 2 | SNot _ => 1 | _ => 0 end.
Definition flag_fine (o : option bool) : Prop := o = None \/ o = Some true.
(** The cardinalities that are written as they are read. *)
Definition card_fine (mn mx : option Z) : Prop :=
  (mn = None /\ mx = None) \/ (mn = Some 0%Z /\ mx = Some 1%Z)
  \/ (mn = Some 0%Z /\ mx = Some (-1)%Z) \/ (mn = Some 1%Z /\ mx = Some (-1)%Z).

(** - the operands of a connective bind more tightly than it;
    - shapes have no semantic actions and extend at most one shape; those inside
      triple constraints have no annotations and extend none;
    - triple expressions are constraints or groups of constraints, without
      labels; a constraint has no annotations or no actions, and the
      cardinality is one of those above. *)
Fixpoint se_fine (inl : bool) (e : se) : Prop :=
  match e with
  | SOr l => 2 <= length l /\ (fix all l := match l with
                              | [] => True
                              | e :: l => (rank e <= 2 /\ se_fine inl e) /\ all l end) l
  | SAnd l => 2 <= length l /\ (fix all l := match l with
                              | [] => True
                              | e :: l => (rank e <= 1 /\ se_fine inl e) /\ all l end) l
  | SNot e => rank e = 0 /\ se_fine inl e
  | SNode c => node_fine c
  | SShape cl ex t ac an ext =>
      flag_fine cl /\ some_of resolved ex /\ match t with Some t => te_fine t | None => True end
      /\ ac = None /\ some_of annot_fine an /\ (inl = true -> an = None /\ ext = None)
      /\ match ext with None => True | Some [l] => label_fine l | _ => False end
  | SExternal => False
  | SRef l => label_fine l
  end
with te_fine (t : te) : Prop :=
  match t with
  | EEach id l mn mx ac an =>
      id = None /\ mn = None /\ mx = None /\ ac = None /\ an = None /\ 2 <= length l
      /\ (fix all l := match l with
          | [] => True
          | t :: l => (match t with ETc _ _ _ _ _ _ _ _ _ => True | _ => False end /\ te_fine t) /\ all l end) l
  | ETc id ng iv p v mn mx ac an =>
      id = None /\ flag_fine ng /\ flag_fine iv /\ resolved p
      /\ match v with None => True | Some e => se_fine true e /\ ~ unconstrained e end
      /\ card_fine mn mx /\ some_of act_fine ac /\ some_of annot_fine an /\ (ac = None \/ an = None)
  | _ => False
  end.

Definition name_fine (r : iriref) : Prop :=
  match r with RName p _ => clear p | RIri i => faithful i | RType => faithful type_iri end.
Definition decl_fine (d : bool * label * se) : Prop :=
  let '(ab, l, e) := d in ab = false /\ label_fine l /\ (e = SExternal \/ se_fine false e).
Definition schema_fine (s : schema) : Prop :=
  match sc_prefixes s with
  | None => True
  | Some l => l <> [] /\ NoDup (List.map fst l) /\ Forall (fun x => clear (fst x)) l
  end
  /\ some_of name_fine (sc_imports s)
  /\ some_of (fun a => name_fine (fst a)) (sc_acts s)
  /\ match sc_start s with Some e => se_fine true e | None => True end
  /\ some_of decl_fine (sc_shapes s).

(** The same schema, up to names of imports and start actions, which are kept
    as they are written. *)
Definition same_name (r r' : iriref) : Prop := r' = r \/ exists i, denotes r i /\ denotes r' i.
Definition both {A} (P : A -> A -> Prop) (o o' : option (list A)) : Prop :=
  match o, o' with
  | None, None => True
  | Some l, Some l' => Forall2 P l l'
  | _, _ => False
  end.
Definition same_schema (s s' : schema) : Prop :=
  sc_prefixes s' = sc_prefixes s /\ sc_base s' = sc_base s /\ sc_start s' = sc_start s /\ sc_shapes s' = sc_shapes s
  /\ both same_name (sc_imports s) (sc_imports s')
  /\ both (fun a b => same_name (fst a) (fst b) /\ snd a = snd b) (sc_acts s) (sc_acts s').
End Printable.

(** A schema is printed with its own prefixes and its own base. *)
Definition printable qualify type_iri lit_prints print_values expand rebase deref_values deref_lit (s : schema) : Prop :=
  schema_fine qualify type_iri lit_prints print_values expand rebase deref_values deref_lit
    (sc_base s) (sc_prefixes s) s.

(** * Tokens that run into each other *)

(** A token whose characters could go on with a letter or a digit. *)
Definition open_end (t : tok) : bool :=
  match t with
  | TWord _ | TName _ _ | TBnode _ | TInt _ | TNum _ | TRegex _ => true
  | TRef (LIri (RName _ _)) | TRef (LBnode _) => true
  | _ => false
  end.
Definition letter (t : tok) : bool :=
  match t with TWord _ | TName _ _ | TBnode _ | TInt _ | TNum _ => true | _ => false end.
(** What stands directly before, without white space: nothing that goes on, an
    open token, or an open token and a percent sign. *)
Inductive before := BNothing | BOpen_ | BPercent.
Fixpoint apart (b : before) (i : text) : bool :=
  match i with
  | [] => true
  | (w, t) :: i =>
      match (if w then BNothing else b) with
      | BNothing => apart (if open_end t then BOpen_ else BNothing) i
      | BOpen_ =>
          negb (letter t) && match t with TP PDot => false | _ => true end
          && apart (match t with TP PPercent => BPercent | _ => if open_end t then BOpen_ else BNothing end) i
      | BPercent =>
          negb (letter t) && apart (if open_end t then BOpen_ else BNothing) i
      end
  end.

(** Schemas in which the printer leaves room: no shape with both extra
    predicates and an extension, and no actions directly after a value. *)
Fixpoint roomy (e : se) : Prop :=
  match e with
  | SOr l | SAnd l => (fix all l := match l with [] => True | e :: l => roomy e /\ all l end) l
  | SNot e => roomy e
  | SShape _ ex t _ _ ext => (ex = None \/ ext = None) /\ match t with Some t => roomy_te t | None => True end
  | _ => True
  end
with roomy_te (t : te) : Prop :=
  match t with
  | EEach _ l _ _ _ _ | EOne _ l _ _ _ _ =>
      (fix all l := match l with [] => True | t :: l => roomy_te t /\ all l end) l
  | ETc _ _ _ _ v mn _ ac _ =>
      match v with Some e => roomy e | None => True end /\ (ac = None \/ mn <> None \/ v = None)
  | EInc _ => True
  end.
Definition roomy_schema (s : schema) : Prop :=
  match sc_start s with Some e => roomy e | None => True end
  /\ match sc_shapes s with Some l => Forall (fun d => roomy (snd d)) l | None => True end.
