(* What a diagram of a schema should show.  Of the model only the data types are used. *)
From Coq Require Import List String Bool ZArith.
Import ListNotations.
From Verif Require Import UmlModel.

(* what IRIs and shapes are called *)
Inductive called {L : lib} : iriref -> string -> string -> Prop :=
| Called_iri i : called (Iri i) (qualify i) i
| Called_prefixed p l i : resolve p l = Some i -> called (Prefixed p l) (p ++ ":" ++ l)%string i.
Definition iri_called {L : lib} (r : iriref) (label : option string) (n : name) : Prop :=
  exists s i, called r s i /\ n = {| n_str := s; n_href := Some i; n_label := label |}.
Definition text (s : string) : name := {| n_str := s; n_href := None; n_label := None |}.
Inductive shape_called {L : lib} : slabel -> name -> Prop :=
| Called_by_iri r n : iri_called r None n -> shape_called (LIri r) n
| Called_blank b : shape_called (LBlank b) (text ("_:" ++ b)%string)
| Called_start : shape_called LStart (text "start").

(* cardinalities; a missing bound is 1, and -1 is no bound *)
Definition bound (x : option Z) : Z := match x with Some n => n | None => 1%Z end.
Definition says_card (c : card) (min max : option Z) : Prop :=
  match c with
  | OneOne => bound min = 1%Z /\ bound max = 1%Z
  | Star => bound min = 0%Z /\ bound max = (-1)%Z
  | Plus => bound min = 1%Z /\ bound max = (-1)%Z
  | Optional => bound min = 0%Z /\ bound max = 1%Z
  | Range m n => bound min = m /\ bound max = n
  | Fixed m => bound min = m /\ bound max = m
  end.
(* one, zero or one, zero or more, one or more *)
Definition usual (min max : option Z) : Prop := (bound min = 0%Z \/ bound min = 1%Z) /\ (bound max = 1%Z \/ bound max = (-1)%Z).

(* values that are shown by arrows *)
Inductive target : Type := ToShape (s : string) | ToShapes (o : op) (ss : list string).
Inductive points {L : lib} : sexpr -> target -> Prop :=
| Points_ref r s i : called r s i -> points (SRef (LIri r)) (ToShape s)
| Points_or ls ns : Forall2 shape_called ls ns -> points (SOr (List.map SRef ls)) (ToShapes Or (List.map n_str ns))
| Points_and ls ns : Forall2 shape_called ls ns -> points (SAnd (List.map SRef ls)) (ToShapes And (List.map n_str ns))
| Points_not l n : shape_called l n -> points (SNot (SRef l)) (ToShapes Not [n_str n]).
(* values that are shown by text *)
Definition datatype_of {L : lib} (e : sexpr) (n : name) : Prop := exists nc r, e = SNode nc /\ nc_datatype nc = Some r /\ iri_called r None n.
Inductive part {A B : Type} (R : A -> B -> Prop) : option A -> list B -> Prop :=
| Part_none : part R None []
| Part_some a b : R a b -> part R (Some a) [b].
Definition in_short (cs : list constraint) : constraint := match cs with [] => Any | [c] => c | _ => CAnd cs end.
Inductive says {L : lib} : option sexpr -> constraint -> Prop :=
| Says_any : says None Any
| Says_node nc ks ds fs vs :
    part (fun k c => c = Kind (text k)) (nc_kind nc) ks ->
    part (fun r c => exists n, iri_called r None n /\ c = Datatype n) (nc_datatype nc) ds ->
    part (fun l c => c = Facet (List.map text l)) (nc_facets nc) fs ->
    part (fun l c => exists ns, Forall2 (fun v n => exists r, v = VIri r /\ iri_called r None n) l ns /\ c = ValueSet ns) (nc_values nc) vs ->
    says (Some (SNode nc)) (in_short (ks ++ ds ++ fs ++ vs))
| Says_or l ns : l <> [] -> Forall2 datatype_of l ns -> says (Some (SOr l)) (COr (List.map Datatype ns))
| Says_and l ns : l <> [] -> Forall2 datatype_of l ns -> says (Some (SAnd l)) (CAnd (List.map Datatype ns)).

(* the picture of a shape: the lines of its class and its arrows *)
Record arrow : Type := { a_source : string; a_target : target; a_pred : name; a_min : option Z; a_max : option Z }.
Inductive pictures {L : lib} (A : string) : list tc -> list entry -> list arrow -> Prop :=
| Pictures_nil : pictures A [] [] []
| Pictures_line t ts es arrows p v c : iri_called (tc_pred t) (tc_label t) p -> says (tc_value t) v -> says_card c (tc_min t) (tc_max t) ->
    pictures A ts es arrows -> pictures A (t :: ts) ({| e_name := p; e_constraint := v; e_card := c |} :: es) arrows
| Pictures_arrow t ts es arrows p e x : iri_called (tc_pred t) (tc_label t) p -> tc_value t = Some e -> points e x ->
    pictures A ts es arrows -> pictures A (t :: ts) es ({| a_source := A; a_target := x; a_pred := p; a_min := tc_min t; a_max := tc_max t |} :: arrows).
Inductive constraints : option texpr -> list tc -> Prop :=
| Constraints_none : constraints None []
| Constraints_one t : constraints (Some (TC t)) [t]
| Constraints_each ts min max : constraints (Some (EachOf (List.map TC ts) min max)) ts.
Record picture : Type := { p_name : name; p_entries : list entry; p_extends : list string; p_arrows : list arrow }.
Definition pictured {L : lib} (d : decl) (p : picture) : Prop :=
  exists s n ts xs, d_expr d = Some s /\ shape_called (d_id d) n /\ n_str (p_name p) = n_str n /\ n_href (p_name p) = n_href n /\
    n_label (p_name p) = match sh_label s with Some l => Some l | None => n_label n end /\
    constraints (sh_expr s) ts /\ pictures (n_str n) ts (p_entries p) (p_arrows p) /\
    Forall2 shape_called (sh_extends s) xs /\ p_extends p = List.map n_str xs.
Definition ordinary (ds : schema) : Prop :=
  forall d s ts t, In d ds -> d_expr d = Some s -> constraints (sh_expr s) ts -> In t ts -> usual (tc_min t) (tc_max t).

(* what is in a diagram *)
Definition node_of (u : uml) (s : string) (n : nat) : Prop := In (LClass s, n) (labels u).
Definition reaches (u : uml) (n : nat) (x : target) : Prop :=
  match x with
  | ToShape s => node_of u s n
  | ToShapes o ss => exists ns, In (n, Logic o ns) (components u) /\
      (forall s, In s ss -> exists m, In m ns /\ node_of u s m) /\ (forall m, In m ns -> exists s, In s ss /\ node_of u s m)
  end.
Definition shows (u : uml) (l : link) (a : arrow) : Prop :=
  node_of u (a_source a) (l_source l) /\ reaches u (l_target l) (a_target a) /\ l_name l = a_pred a /\ says_card (l_card l) (a_min a) (a_max a).
(* the links are the arrows in order; others are those of operators to their members *)
Inductive shown (u : uml) : list link -> list arrow -> Prop :=
| Shown_nil : shown u [] []
| Shown_arrow l a ls arrows : shows u l a -> shown u ls arrows -> shown u (l :: ls) (a :: arrows)
| Shown_member l o ns ls arrows : In (l_source l, Logic o ns) (components u) -> In (l_target l) ns -> l_name l = text "member" -> l_card l = OneOne ->
    shown u ls arrows -> shown u (l :: ls) arrows.
Definition has_class (u : uml) (p : picture) : Prop :=
  exists n xs, node_of u (n_str (p_name p)) n /\ In (n, Class_ {| c_name := p_name p; c_entries := p_entries p; c_extends := xs |}) (components u) /\
    Forall2 (node_of u) (p_extends p) xs.
(* what is next to a node *)
Definition touches (u : uml) (t n : nat) : Prop :=
  n = t \/ (exists l, In l (links u) /\ ((l_source l = t /\ l_target l = n) \/ (l_source l = n /\ l_target l = t))) \/
  In (t, n) (extends u) \/ In (n, t) (extends u).
(* the arcs of EXTENDS *)
Definition extensions (p : picture) : list (string * string) := List.map (fun x => (n_str (p_name p), x)) (p_extends p).
(* the last picture with its name *)
Definition last_of (p : picture) (ps : list picture) : Prop := exists l r, ps = (l ++ p :: r)%list /\ forall q, In q r -> n_str (p_name q) <> n_str (p_name p).
