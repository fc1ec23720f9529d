(* What generating data from ShEx schemas should do.  Of the model only the types are used; the meaning of shapes is that of SqSpec. *)
From Coq Require Import List String Ascii Bool ZArith QArith Permutation Decimal DecimalString.
Import ListNotations.
From Verif Require Import SjModel CoModel CoSpec SqModel SqSpec GenModel.
Open Scope string_scope.

Section Spec.
Context {L : lib} {G : glib}.

(* ------------------------------------------------------------------ *)
(* What the data say                                                    *)

Definition arc (ts : list triple) (n : term) (p : string) (o : term) : Prop :=
  exists s, n = TmIri s /\ In {| tr_s := s; tr_p := p; tr_o := o |} ts.

(* The integer that a text denotes, and the integer of a facet. *)
Definition denotes (s : string) (z : Z) : Prop := exists i, NilZero.int_of_string s = Some i /\ Z.of_int i = z.
Definition number (n : fnum) (z : Z) : Prop := parse_i64 (show_fnum n) = Some z.

(* The nodes that a node constraint is met by.  Facets that are no bounds, value sets and other shape expressions mean anything. *)
Variable other_facet : facet -> string -> Prop.
Variable in_set : list SjModel.value -> term -> Prop.
Variable other_expr : sexpr -> term -> Prop.
Definition facet_met (f : facet) (s : string) : Prop :=
  match f with
  | FMinIn n => exists z b, denotes s z /\ number n b /\ (b <= z)%Z
  | FMinEx n => exists z b, denotes s z /\ number n b /\ (b < z)%Z
  | FMaxIn n => exists z b, denotes s z /\ number n b /\ (z <= b)%Z
  | FMaxEx n => exists z b, denotes s z /\ number n b /\ (z < b)%Z
  | f => other_facet f s
  end.
Definition kind_met (k : nodekind) (o : term) : Prop :=
  match k with
  | NIri | NNonLiteral => exists s, o = TmIri s
  | NLiteral => exists s d, o = TmLit s d
  | NBNode => False
  end.
Definition node_met (n : nodec) (o : term) : Prop :=
  (forall d, n_datatype n = Some d -> exists s i, o = TmLit s i /\ stands_for [] d i) /\
  (forall k, n_kind n = Some k -> kind_met k o) /\
  (forall fs f, n_facets n = Some fs -> In f fs -> exists s d, o = TmLit s d /\ facet_met f s) /\
  (forall vs, n_values n = Some vs -> in_set vs o).
Definition meets (e : sexpr) (o : term) : Prop := match e with SNode n => node_met n o | e => other_expr e o end.

(* The node has the shape of the declaration, in the data. *)
Definition conforms (ts : list triple) (d : decl) (n : string) : Prop :=
  forall arcs, outgoing (arc ts) (TmIri n) arcs ->
    match d_expr d with
    | SShape closed extra te _ _ None => has_shape meets [] closed extra te arcs
    | e => other_expr e (TmIri n)
    end.

(* ------------------------------------------------------------------ *)
(* Schemas for which the data are as they should be                     *)

Definition known_datatypes : list string :=
  ["http://www.w3.org/2001/XMLSchema#string"; "http://www.w3.org/2001/XMLSchema#integer"; "http://www.w3.org/2001/XMLSchema#decimal";
   "http://www.w3.org/2001/XMLSchema#boolean"; "http://www.w3.org/2001/XMLSchema#date"; "http://www.w3.org/2001/XMLSchema#dateTime";
   "http://www.w3.org/2001/XMLSchema#anyURI"].
Definition the_type : string := "http://www.w3.org/1999/02/22-rdf-syntax-ns#type".

(* The least and the greatest integer that the facets allow. Without facets integers are made between -1000 and 10000. *)
Definition lower (f : facet) (b : Z) : Prop :=
  (exists n, f = FMinIn n /\ number n b) \/ exists n c, f = FMinEx n /\ number n c /\ b = (c + 1)%Z.
Definition upper (f : facet) (b : Z) : Prop :=
  (exists n, f = FMaxIn n /\ number n b) \/ exists n c, f = FMaxEx n /\ number n c /\ b = (c - 1)%Z.
Inductive allowed : list facet -> Z -> Z -> Prop :=
| A_any : allowed [] (-1000) 10000
| A_lower f b : lower f b -> allowed [f] b 10000
| A_upper f b : upper f b -> allowed [f] (-1000) b
| A_both f b f' b' : lower f b -> upper f' b' -> allowed [f; f'] b b'
| A_both' f b f' b' : lower f b -> upper f' b' -> allowed [f'; f] b b'.
Definition small (z : Z) : Prop := (- 2 ^ 31 <= z < 2 ^ 31)%Z.
Definition wide_enough (fs : list facet) : Prop := exists lo hi, allowed fs lo hi /\ (lo <= hi)%Z /\ small lo /\ small hi.

(* A value of a datatype for which values are made, with bounds for integers only. *)
Definition easy_node (n : nodec) : Prop :=
  exists d, n_datatype n = Some (Iri d) /\ In d known_datatypes /\ n_values n = None /\
    (n_kind n = None \/ n_kind n = Some NLiteral) /\
    match n_facets n with None => True | Some fs => fs = [] \/ d = "http://www.w3.org/2001/XMLSchema#integer" /\ wide_enough fs end.
(* At most one value is asked for. *)
Definition easy_repeat (mn mx : option Z) : Prop :=
  let m := match mn with Some z => z | None => 1%Z end in
  (0 <= m <= 1)%Z /\ match mx with Some k => k = (-1)%Z \/ (m <= k < 2 ^ 31)%Z | None => True end.
Fixpoint easy (te : texpr) : Prop :=
  match te with
  | TEach _ l mn mx _ _ => within mn mx 1 /\ fold_right and True (List.map easy l)
  | TTriple _ neg inv p ve mn mx _ _ =>
      neg <> Some true /\ inv <> Some true /\ (exists i, p = Iri i /\ i <> the_type) /\
      (exists n, ve = Some (SNode n) /\ easy_node n) /\ easy_repeat mn mx
  | TOne _ _ _ _ _ _ | TRef _ => False
  end.
(* No property has two constraints. *)
Definition easy_shape (te : option texpr) : Prop :=
  forall te', te = Some te' -> easy te' /\ NoDup (List.map fst (constraints te')).
Definition easy_decl (d : decl) : Prop :=
  (exists i, d_id d = LIri (Iri i) /\ iri_ok i = true) /\
  exists closed extra te a n, d_expr d = SShape closed extra te a n None /\ closed <> Some true /\ easy_shape te.
(* Shapes of values, all with different labels. *)
Definition easy_schema (ds : list decl) : Prop := Forall easy_decl ds /\ NoDup (List.map d_id ds).

(* Nothing that is required is left out on purpose. *)
Definition whole_entities (cfg : config) : Prop :=
  c_ignore cfg = false /\ c_limit cfg = 0%Z /\ c_excluded cfg = [] /\
  forall id o, In (id, o) (c_overrides cfg) ->
    o_ignore o <> Some true /\ (forall n, o_limit o = Some n -> n = 0%Z) /\ (forall l, o_excluded o = Some l -> l = []).

(* The generators make a text of the datatype if nothing is asked of it. *)
Definition texts : Prop := forall d p r, In d known_datatypes -> exists s, text d p [] r = Ok s.

(* ------------------------------------------------------------------ *)
(* How many entities of each shape                                      *)

Definition total (l : list Z) : Z := fold_right Z.add 0%Z l.
Definition first_of (k : string) (cs : list (string * Z)) (n : Z) : Prop :=
  exists a b, cs = (a ++ (k, n) :: b)%list /\ ~ In k (List.map fst a).
Definition allotted (cfg : config) (ids : list string) (f : string -> Z) : Prop :=
  match c_distribution cfg with
  | Equal => (ids <> [] -> total (List.map f ids) = c_count cfg) /\ forall i j, In i ids -> In j ids -> (Z.abs (f i - f j) <= 1)%Z
  | Custom cs => forall i, In i ids -> first_of i cs (f i) \/ ~ In i (List.map fst cs) /\ f i = 0%Z
  | Weighted _ => True
  end.
(* There is something to divide. *)
Definition divides (cfg : config) : Prop :=
  (0 <= c_count cfg)%Z /\
  match c_distribution cfg with
  | Equal => True
  | Custom cs => forall k n, In (k, n) cs -> (0 <= n)%Z
  | Weighted ws => (0 < fold_right (fun e s => snd e + s) 0 ws)%Q
  end.

(* The k-th entity of a shape. *)
Definition entity (id : string) (k : Z) : string := id ++ "-" ++ NilZero.string_of_int (Z.to_int k).

(* Of every shape there are as many entities as it is allotted, and no others, and all of them have the shape. *)
Definition good_data (cfg : config) (ds : list decl) (ts : list triple) : Prop :=
  exists f : string -> Z, allotted cfg (List.map (fun d => show_label (d_id d)) ds) f /\
    forall d id, In d ds -> d_id d = LIri (Iri id) -> (0 <= f id)%Z /\
      (forall s, arc ts (TmIri s) the_type (TmIri id) <-> exists k, (1 <= k <= f id)%Z /\ s = entity id k) /\
      forall k, (1 <= k <= f id)%Z -> conforms ts d (entity id k).

(* ------------------------------------------------------------------ *)
(* How many values                                                      *)

(* The bounds of a cardinality of the generator, for which -1 is no bound. *)
Definition between (mn mx : option Z) (k : Z) : Prop :=
  (match mn with Some m => m | None => 1 end <= k)%Z /\
  match mx with Some m => m = (-1)%Z \/ (k <= m)%Z | None => (k <= 1)%Z end.
(* Bounds that can be met; without a greatest number, at most five values are made. *)
Definition can_be_met (mn mx : option Z) : Prop :=
  let m := match mn with Some m => m | None => 1%Z end in
  match mx with Some k => k = (-1)%Z /\ (m <= 5)%Z \/ (m <= k /\ 0 <= k < 2 ^ 31)%Z | None => (m <= 1)%Z end.
(* There are enough entities to be related to. *)
Definition enough_targets (mn mx : option Z) (n : Z) : Prop :=
  let m := match mn with Some m => m | None => 1%Z end in
  (m <= n /\ 0 <= n < 2 ^ 63)%Z /\ match mx with Some k => k = (-1)%Z /\ (m <= 20)%Z \/ (m <= k /\ 0 <= k < 2 ^ 31)%Z | None => (m <= 1)%Z end.
End Spec.
