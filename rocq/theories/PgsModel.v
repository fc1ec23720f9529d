(** Model of the property graph schemas of /repo/pgschema/src: values, conditions,
    value types, records, record types, base types, specifications, schemas and
    type maps.  Strings that are only compared for equality (keys, labels, names of
    types, nodes and edges) are natural numbers; the strings inside values are lists
    of code points.  Hash sets and hash maps are lists; the order of such a list stands
    for the iteration order, which Rust leaves open.  Messages inside errors and
    evidence are dropped. *)
From Coq Require Import List Bool Arith ZArith NArith.
Import ListNotations.

Definition name := nat.
Definition text := list N.

(** pgschema/src/value.rs 7-13.  [Date] of the crate [time] is a day number: its [Ord]
    is the order of the calendar. *)
Inductive value :=
| VString (s : text)
| VInteger (i : Z)
| VDate (d : Z)
| VBool (b : bool).

(** pgschema/src/pgs_error.rs: the variants the modelled code builds, without messages. *)
Inductive error :=
| TypeMismatch
| InvalidRegex
| CardinalityMismatch
| PredicateFailed
| ConditionFailed
| MissingKeys (ks : list name)
| ExtraKeysNotOpen (ks : list name)
| KeyNotFound (k : name)
| LabelsDifferent
| RecordContentFails
| MissingNodeLabel (n : name)
| MissingEdgeLabel (n : name)
| MissingType (n : name)
| MissingNodeId (i : nat)
| MissingNodeEdgeLabel (n : name)
| MissingAssociation (n t : name)
| DuplicateEdgeTypeName (n : name).

(** pgschema/src/evidence.rs. *)
Inductive evidence :=
| ConditionPassed
| AnyEvidence
| LabelsContentConforms.

(** [Result<A, PgsError>]; [Either<Vec<PgsError>, Vec<Evidence>>]. *)
Inductive res (A : Type) := Ok (a : A) | Err (e : error).
Arguments Ok {A} a.
Arguments Err {A} e.

Inductive verdict := Left (es : list error) | Right (vs : list evidence).

Definition is_right (v : verdict) : bool :=
  match v with Right _ => true | Left _ => false end.

(** derived [PartialEq] of [String] and [Value] (value.rs 7). *)
Fixpoint text_eqb (a b : text) : bool :=
  match a, b with
  | [], [] => true
  | x :: a', y :: b' => N.eqb x y && text_eqb a' b'
  | _, _ => false
  end.

Definition value_eqb (a b : value) : bool :=
  match a, b with
  | VString s, VString t => text_eqb s t
  | VInteger i, VInteger j => Z.eqb i j
  | VDate i, VDate j => Z.eqb i j
  | VBool x, VBool y => Bool.eqb x y
  | _, _ => false
  end.

(** value.rs 33-52. *)
Definition is_string v := match v with VString _ => true | _ => false end.
Definition is_integer v := match v with VInteger _ => true | _ => false end.
Definition is_date v := match v with VDate _ => true | _ => false end.
Definition is_bool v := match v with VBool _ => true | _ => false end.

(** value.rs 57-103. *)
Definition greater_than (a b : value) : res bool :=
  match a, b with
  | VInteger i, VInteger v => Ok (Z.gtb i v)
  | VDate i, VDate v => Ok (Z.gtb i v)
  | _, _ => Err TypeMismatch
  end.

Definition less_than (a b : value) : res bool :=
  match a, b with
  | VInteger i, VInteger v => Ok (Z.ltb i v)
  | VDate i, VDate v => Ok (Z.ltb i v)
  | _, _ => Err TypeMismatch
  end.

Definition less_than_or_equal (a b : value) : res bool :=
  match a, b with
  | VInteger i, VInteger v => Ok (Z.leb i v)
  | VDate i, VDate v => Ok (Z.leb i v)
  | _, _ => Err TypeMismatch
  end.

Definition greater_than_or_equal (a b : value) : res bool :=
  match a, b with
  | VInteger i, VInteger v => Ok (Z.geb i v)
  | VDate i, VDate v => Ok (Z.geb i v)
  | _, _ => Err TypeMismatch
  end.

(** The crate [regex]: [None] when the pattern does not compile. *)
Definition regexes := text -> text -> option bool.

(** value.rs 105-123. *)
Definition regex_match (rx : regexes) (v : value) (pattern : text) : res bool :=
  match v with
  | VString s => match rx pattern s with Some b => Ok b | None => Err InvalidRegex end
  | _ => Err TypeMismatch
  end.

(** [String]'s [Ord] is that of its bytes, which in UTF-8 is the order of code points. *)
Fixpoint text_cmp (a b : text) : comparison :=
  match a, b with
  | [], [] => Eq
  | [], _ :: _ => Lt
  | _ :: _, [] => Gt
  | x :: a', y :: b' => match N.compare x y with Eq => text_cmp a' b' | c => c end
  end.

(** value.rs 148-157, the [Ord] of [Value]. *)
Definition value_cmp (a b : value) : comparison :=
  match a, b with
  | VInteger i, VInteger j => Z.compare i j
  | VString s, VString t => text_cmp s t
  | VDate i, VDate j => Z.compare i j
  | _, _ => Eq
  end.

(** pgschema/src/boolean_expr.rs 6-18. *)
Inductive cond :=
| CTrue
| CFalse
| CAnd (a b : cond)
| COr (a b : cond)
| CNot (a : cond)
| CEquals (v : value)
| CGreaterThan (v : value)
| CLessThan (v : value)
| CGreaterThanOrEqual (v : value)
| CLessThanOrEqual (v : value)
| CRegex (p : text).

(** boolean_expr.rs 21-46. *)
Fixpoint check (rx : regexes) (c : cond) (v : value) : res bool :=
  match c with
  | CAnd a b =>
      match check rx a v with
      | Err e => Err e
      | Ok x => match check rx b v with Err e => Err e | Ok y => Ok (x && y) end
      end
  | COr a b =>
      match check rx a v with
      | Err e => Err e
      | Ok x => match check rx b v with Err e => Err e | Ok y => Ok (x || y) end
      end
  | CNot a => match check rx a v with Err e => Err e | Ok x => Ok (negb x) end
  | CEquals w => Ok (value_eqb v w)
  | CGreaterThan w => greater_than v w
  | CLessThan w => less_than v w
  | CGreaterThanOrEqual w => greater_than_or_equal v w
  | CLessThanOrEqual w => less_than_or_equal v w
  | CRegex p => regex_match rx v p
  | CTrue => Ok true
  | CFalse => Ok false
  end.

(** pgschema/src/card.rs 4-11, 52-56. *)
Inductive max := Unbounded | Bounded (n : nat).

Inductive card :=
| ZeroOrOne
| One
| ZeroOrMore
| OneOrMore
| Range (lo : nat) (hi : max).

(** card.rs 17-28. *)
Definition card_contains (c : card) (count : nat) : bool :=
  match c with
  | ZeroOrOne => count <=? 1
  | One => count =? 1
  | ZeroOrMore => true
  | OneOrMore => 1 <=? count
  | Range lo Unbounded => lo <=? count
  | Range lo (Bounded hi) => (lo <=? count) && (count <=? hi)
  end.

(** card.rs 59-66. *)
Definition max_min (a b : max) : max :=
  match a, b with
  | Unbounded, _ => Unbounded
  | _, Unbounded => Unbounded
  | Bounded x, Bounded y => Bounded (Nat.min x y)
  end.

(** card.rs 30-38; the arms of a Rust [match] are tried in order. *)
Definition card_intersection (a b : card) : card :=
  match a, b with
  | ZeroOrOne, _ => ZeroOrOne
  | _, ZeroOrOne => ZeroOrOne
  | One, _ => One
  | _, One => One
  | ZeroOrMore, _ => ZeroOrMore
  | _, ZeroOrMore => ZeroOrMore
  | OneOrMore, _ => OneOrMore
  | _, OneOrMore => OneOrMore
  | Range lo1 hi1, Range lo2 hi2 => Range (Nat.max lo1 lo2) (max_min hi1 hi2)
  end.

(** pgschema/src/value_type.rs 6-16. *)
Inductive vtype :=
| TAny
| TString (c : card)
| TInteger (c : card)
| TDate (c : card)
| TBool (c : card)
| TIntersection (a b : vtype)
| TUnion (a b : vtype)
| TCond (c : cond).

(** value_type.rs 122-141. *)
Definition check_all (vs : list value) (p : value -> bool) : verdict :=
  if forallb p vs then Right [] else Left [PredicateFailed].

Definition sized (c : card) (vs : list value) (p : value -> bool) : verdict :=
  if negb (card_contains c (length vs)) then Left [CardinalityMismatch]
  else check_all vs p.

(** value_type.rs 87-103. *)
Fixpoint check_values (rx : regexes) (c : cond) (vs : list value) : verdict :=
  match vs with
  | [] => Right [ConditionPassed]
  | v :: rest =>
      match check rx c v with
      | Ok true => check_values rx c rest
      | Ok false => Left [ConditionFailed]
      | Err e => Left [e]
      end
  end.

(** value_type.rs 40-119. *)
Fixpoint type_conforms (rx : regexes) (t : vtype) (vs : list value) : verdict :=
  match t with
  | TString c => sized c vs is_string
  | TInteger c => sized c vs is_integer
  | TDate c => sized c vs is_date
  | TBool c => sized c vs is_bool
  | TIntersection a b =>
      match type_conforms rx a vs, type_conforms rx b vs with
      | Left x, Left y => Left (x ++ y)
      | Left x, Right _ => Left x
      | Right _, Left y => Left y
      | Right x, Right y => Right (x ++ y)
      end
  | TUnion a b =>
      match type_conforms rx a vs, type_conforms rx b vs with
      | Left x, Left y => Left (x ++ y)
      | Left _, Right y => Right y
      | Right x, Left _ => Right x
      | Right x, Right y => Right (x ++ y)
      end
  | TCond c => check_values rx c vs
  | TAny => Right [AnyEvidence]
  end.

(** Association lists for the maps. *)
Section Assoc.
  Context {A : Type}.

  Fixpoint lookup (m : list (name * A)) (k : name) : option A :=
    match m with
    | [] => None
    | (k', x) :: rest => if k =? k' then Some x else lookup rest k
    end.

  (** [insert] of [BTreeMap] and [HashMap]: replaces the value of a key that is there. *)
  Fixpoint put (m : list (name * A)) (k : name) (x : A) : list (name * A) :=
    match m with
    | [] => [(k, x)]
    | (k', y) :: rest => if k =? k' then (k', x) :: rest else (k', y) :: put rest k x
    end.
End Assoc.

Definition memb (k : name) (l : list name) : bool := existsb (Nat.eqb k) l.

(** pgschema/src/record.rs 8-11. *)
Definition record := list (name * list value).

Definition record_keys (r : record) : list name := map fst r.

(** [HashSet::insert] on values. *)
Definition value_add (vs : list value) (v : value) : list value :=
  if existsb (value_eqb v) vs then vs else vs ++ [v].

Definition values_extend (vs ws : list value) : list value := fold_left value_add ws vs.

(** record.rs 32-38. *)
Definition record_insert (r : record) (k : name) (v : value) : record :=
  match lookup r k with
  | Some vs => put r k (value_add vs v)
  | None => put r k [v]
  end.

Definition insert_values (r : record) (k : name) (ws : list value) : record :=
  match lookup r k with
  | Some vs => put r k (values_extend vs ws)
  | None => put r k (values_extend [] ws)
  end.

(** pgschema/src/record_type.rs 11-15. *)
Record rtype := mkRtype { rt_map : list (name * vtype); rt_open : bool }.

Definition rt_keys (t : rtype) : list name := map fst (rt_map t).

(** record_type.rs 27-38. *)
Definition rt_new : rtype := mkRtype [] false.
Definition rt_with_open (t : rtype) : rtype := mkRtype (rt_map t) true.

(** record_type.rs 46-49. *)
Definition rt_with (t : rtype) (k : name) (v : vtype) : rtype :=
  mkRtype (put (rt_map t) k v) (rt_open t).

(** record_type.rs 132-148. *)
Definition compare_keys (type_keys rec_keys : list name) : list name * list name :=
  (filter (fun k => negb (memb k rec_keys)) type_keys,
   filter (fun k => negb (memb k type_keys)) rec_keys).

Definition non_empty {A} (l : list A) : bool := match l with [] => false | _ => true end.

(** record_type.rs 69-90. *)
Fixpoint check_fields (rx : regexes) (open : bool) (m : list (name * vtype)) (r : record) : verdict :=
  match m with
  | [] => Right []
  | (k, t) :: rest =>
      match lookup r k with
      | Some vs =>
          match type_conforms rx t vs with
          | Left es => Left es
          | Right _ => check_fields rx open rest r
          end
      | None => if negb open then Left [KeyNotFound k] else check_fields rx open rest r
      end
  end.

(** record_type.rs 52-92. *)
Definition rt_conforms (rx : regexes) (t : rtype) (r : record) : verdict :=
  let (missing, extra) := compare_keys (rt_keys t) (record_keys r) in
  if non_empty missing then Left [MissingKeys missing]
  else if non_empty extra && negb (rt_open t) then Left [ExtraKeysNotOpen extra]
  else check_fields rx (rt_open t) (rt_map t) r.

(** record_type.rs 95-103, the first loop of [combine]. *)
Fixpoint combine_left (m other acc : list (name * vtype)) : list (name * vtype) :=
  match m with
  | [] => acc
  | (k, t) :: rest =>
      combine_left rest other
        (put acc k (match lookup other k with Some u => TIntersection t u | None => t end))
  end.

(** record_type.rs 104-108, the second loop. *)
Fixpoint combine_right (m self acc : list (name * vtype)) : list (name * vtype) :=
  match m with
  | [] => acc
  | (k, t) :: rest =>
      combine_right rest self
        (match lookup self k with Some _ => acc | None => put acc k t end)
  end.

(** record_type.rs 94-110. *)
Definition rt_combine (a b : rtype) : rtype :=
  mkRtype (combine_right (rt_map b) (rt_map a) (combine_left (rt_map a) (rt_map b) [])) false.

(** pgschema/src/label_set.rs: [BTreeSet<String>] as a strictly increasing list. *)
Definition labels := list name.

Fixpoint label_insert (l : labels) (x : name) : labels :=
  match l with
  | [] => [x]
  | y :: rest =>
      match Nat.compare x y with
      | Lt => x :: l
      | Eq => l
      | Gt => y :: label_insert rest x
      end
  end.

Definition label_extend (l : labels) (xs : list name) : labels := fold_left label_insert xs l.
Definition labels_from (xs : list name) : labels := label_extend [] xs.

Fixpoint labels_eqb (a b : labels) : bool :=
  match a, b with
  | [], [] => true
  | x :: a', y :: b' => (x =? y) && labels_eqb a' b'
  | _, _ => false
  end.

Definition has_labels (ls : list labels) (l : labels) : bool := existsb (labels_eqb l) ls.

(** [HashSet::insert] on label sets. *)
Definition labels_add (ls : list labels) (l : labels) : list labels :=
  if has_labels ls l then ls else ls ++ [l].

(** pgschema/src/formal_base_type.rs 12-17.  The set of record types is a list that may
    repeat a type: only membership is ever asked of it. *)
Record base := mkBase { b_labels : list labels; b_open : bool; b_content : list rtype }.

(** formal_base_type.rs 27-38. *)
Definition base_new : base := mkBase [] false [].
Definition base_with_open (b : base) : base := mkBase (b_labels b) true (b_content b).

(** formal_base_type.rs 87-95. *)
Fixpoint content_conforms (rx : regexes) (ts : list rtype) (r : record) : verdict :=
  match ts with
  | [] => Left [RecordContentFails]
  | t :: rest =>
      if is_right (rt_conforms rx t r) then Right [LabelsContentConforms]
      else content_conforms rx rest r
  end.

(** formal_base_type.rs 62-106. *)
Definition base_conforms (rx : regexes) (b : base) (l : labels) (r : record) : verdict :=
  if negb (has_labels (b_labels b) l) then Left [LabelsDifferent]
  else content_conforms rx (b_content b) r.

(** formal_base_type.rs 109-113. *)
Definition from_label (l : name) : base := mkBase [labels_from [l]] false [rt_new].

(** formal_base_type.rs 123-130. *)
Definition base_union (a b : base) : base :=
  mkBase (fold_left labels_add (b_labels b) (fold_left labels_add (b_labels a) [])) false
         (b_content a ++ b_content b).

(** formal_base_type.rs 159-176. *)
Definition combine_label_sets (s1 s2 : list labels) : list labels :=
  match s1, s2 with
  | [], _ => s2
  | _, [] => s1
  | _, _ =>
      fold_left (fun acc l1 => fold_left (fun acc l2 => labels_add acc (label_extend l1 l2)) s2 acc)
        s1 []
  end.

(** formal_base_type.rs 178-194. *)
Definition combine_set_records (s1 s2 : list rtype) : list rtype :=
  match s1, s2 with
  | [], _ => s2
  | _, [] => s1
  | _, _ => flat_map (fun r1 => map (rt_combine r1) s2) s1
  end.

(** formal_base_type.rs 132-146, 155-157. *)
Definition base_combine (a b : base) : base :=
  mkBase (combine_label_sets (b_labels a) (b_labels b))
         (b_open a || b_open b)
         (combine_set_records (b_content a) (b_content b)).

(** formal_base_type.rs 148-156. *)
Definition type_0 : base := mkBase [] false [rt_new].

(** pgschema/src/property_value_spec.rs 203-209. *)
Inductive tspec :=
| SConjunction (a b : tspec)
| SDisjunction (a b : tspec)
| SValue (t : vtype)
| SCond (t : vtype) (c : cond).

(** property_value_spec.rs 212-229. *)
Fixpoint to_value_type (s : tspec) : vtype :=
  match s with
  | SValue t => t
  | SConjunction a b => TIntersection (to_value_type a) (to_value_type b)
  | SDisjunction a b => TUnion (to_value_type a) (to_value_type b)
  | SCond t c => TIntersection t (TCond c)
  end.

(** property_value_spec.rs 39-46. *)
Inductive pvalue :=
| EachOf (a b : pvalue)
| OneOf (a b : pvalue)
| Property (k : name) (t : tspec)
| OptionalProperty (k : name) (t : tspec)
| PEmpty.

(** property_value_spec.rs 111-119. *)
Definition combine_semantics_sets (l r : list rtype) : list rtype :=
  flat_map (fun x => map (rt_combine x) r) l.

(** property_value_spec.rs 69-94. *)
Fixpoint pv_semantics (p : pvalue) : list rtype :=
  match p with
  | EachOf a b => combine_semantics_sets (pv_semantics a) (pv_semantics b)
  | OneOf a b => pv_semantics a ++ pv_semantics b
  | Property k t => [rt_with rt_new k (to_value_type t)]
  | OptionalProperty k t => [rt_with rt_new k (to_value_type t); rt_new]
  | PEmpty => []
  end.

(** property_value_spec.rs 12-16. *)
Inductive pspec := PClosed (p : pvalue) | POpen (p : pvalue).

(** property_value_spec.rs 27-36. *)
Definition pspec_semantics (s : pspec) : base :=
  mkBase [] false
    (match s with
     | PClosed p => pv_semantics p
     | POpen p => map rt_with_open (pv_semantics p)
     end).

(** pgschema/src/label_property_spec.rs 12-22. *)
Inductive spec :=
| LEmpty
| LLabel (l : name)
| LRef (t : name)
| LOptional (s : spec)
| LAnd (a b : spec)
| LOr (a b : spec)
| LOpen (s : spec)
| LContent (s : spec) (p : pspec).

(** pgschema/src/edge_type.rs 8-13 (an [EdgeLabelPropertySpec] wraps a specification). *)
Record etype := mkEtype { et_source : spec; et_edge : spec; et_target : spec }.

(** pgschema/src/pgs.rs 10-18. *)
Record schema := mkSchema {
  node_types : list (nat * spec);
  edge_types : list (nat * etype);
  node_names : list (name * nat);
  edge_names : list (name * nat);
  node_counter : nat;
  edge_counter : nat
}.

(** pgs.rs 27-36. *)
Definition schema_new : schema := mkSchema [] [] [] [] 0 0.

(** pgs.rs 48-55. *)
Definition get_node_semantics (sc : schema) (t : name) : res spec :=
  match lookup (node_names sc) t with
  | None => Err (MissingNodeLabel t)
  | Some i => match lookup (node_types sc) i with Some s => Ok s | None => Err (MissingType t) end
  end.

(** pgs.rs 93-99. *)
Definition add_node_spec (sc : schema) (t : name) (s : spec) : schema :=
  mkSchema (put (node_types sc) (node_counter sc) s) (edge_types sc)
           (put (node_names sc) t (node_counter sc)) (edge_names sc)
           (S (node_counter sc)) (edge_counter sc).

(** pgs.rs 116-135. *)
Definition add_edge_spec (sc : schema) (t : name) (e : etype) : res schema :=
  match lookup (edge_names sc) t with
  | Some _ => Err (DuplicateEdgeTypeName t)
  | None =>
      Ok (mkSchema (node_types sc) (put (edge_types sc) (edge_counter sc) e)
                   (node_names sc) (put (edge_names sc) t (edge_counter sc))
                   (node_counter sc) (S (edge_counter sc)))
  end.

(** The recursion of [semantics] follows references without a bound, so a run is
    given fuel: [None] is a run that has not ended yet. *)
Definition run (A : Type) := option (res A).

Definition rbind {A B} (x : run A) (f : A -> run B) : run B :=
  match x with
  | None => None
  | Some (Err e) => Some (Err e)
  | Some (Ok a) => f a
  end.

(** label_property_spec.rs 58-90. *)
Fixpoint semantics (sc : schema) (fuel : nat) : spec -> run base :=
  fix go (s : spec) : run base :=
    match s with
    | LEmpty => Some (Ok type_0)
    | LLabel l => Some (Ok (from_label l))
    | LRef t =>
        match get_node_semantics sc t with
        | Err e => Some (Err e)
        | Ok s' => match fuel with O => None | S f => semantics sc f s' end
        end
    | LOptional s1 => rbind (go s1) (fun b => Some (Ok (base_union b type_0)))
    | LAnd s1 s2 =>
        rbind (go s1) (fun b1 => rbind (go s2) (fun b2 => Some (Ok (base_combine b1 b2))))
    | LOr s1 s2 =>
        rbind (go s1) (fun b1 => rbind (go s2) (fun b2 => Some (Ok (base_union b1 b2))))
    | LOpen s1 => rbind (go s1) (fun b => Some (Ok (base_with_open b)))
    | LContent s1 p => rbind (go s1) (fun b => Some (Ok (base_combine b (pspec_semantics p))))
    end.

(** pgschema/src/node.rs 4-9 and edge.rs 5-12. *)
Record node := mkNode { n_labels : labels; n_content : record }.
Record edge := mkEdge { e_source : nat; e_target : nat; e_labels : labels; e_content : record }.

(** pgs.rs 137-152. *)
Definition conforms_node (rx : regexes) (sc : schema) (fuel : nat) (t : name) (n : node) : option verdict :=
  match lookup (node_names sc) t with
  | Some i =>
      match lookup (node_types sc) i with
      | Some s =>
          match semantics sc fuel s with
          | Some (Ok b) => Some (base_conforms rx b (n_labels n) (n_content n))
          | Some (Err e) => Some (Left [e])
          | None => None
          end
      | None => Some (Left [MissingType t])
      end
  | None => Some (Left [MissingNodeLabel t])
  end.

(** edge_type.rs 36-40. *)
Record esem := mkEsem { es_source : base; es_edge : base; es_target : base }.

(** edge_type.rs 18-23. *)
Definition edge_semantics (sc : schema) (fuel : nat) (e : etype) : run esem :=
  rbind (semantics sc fuel (et_source e)) (fun s =>
  rbind (semantics sc fuel (et_edge e)) (fun m =>
  rbind (semantics sc fuel (et_target e)) (fun t => Some (Ok (mkEsem s m t))))).

(** edge_type.rs 66-83. *)
Definition accumulate (acc r : verdict) : verdict :=
  match acc, r with
  | Right x, Right y => Right (x ++ y)
  | Right _, Left es => Left es
  | Left x, Left y => Left (x ++ y)
  | Left x, Right _ => Left x
  end.

(** edge_type.rs 43-85; [find] is [PropertyGraph::node]. *)
Definition esem_conforms (rx : regexes) (s : esem) (find : nat -> option node) (e : edge) : verdict :=
  match find (e_source e) with
  | None => Left [MissingNodeId (e_source e)]
  | Some src =>
      match find (e_target e) with
      | None => Left [MissingNodeId (e_target e)]
      | Some tgt =>
          let source_conforms := base_conforms rx (es_source s) (n_labels src) (n_content src) in
          let target_conforms := base_conforms rx (es_target s) (n_labels tgt) (n_content tgt) in
          let edge_conforms := base_conforms rx (es_edge s) (e_labels e) (e_content e) in
          fold_left accumulate [source_conforms; edge_conforms; target_conforms] (Right [])
      end
  end.

(** pgs.rs 154-175. *)
Definition conforms_edge (rx : regexes) (sc : schema) (fuel : nat) (t : name)
    (find : nat -> option node) (e : edge) : option verdict :=
  match lookup (edge_names sc) t with
  | Some i =>
      match lookup (edge_types sc) i with
      | Some et =>
          match edge_semantics sc fuel et with
          | Some (Ok s) => Some (esem_conforms rx s find e)
          | Some (Err x) => Some (Left [x])
          | None => None
          end
      | None => Some (Left [MissingType t])
      end
  | None => Some (Left [MissingEdgeLabel t])
  end.
