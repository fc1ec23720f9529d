(** SHACL validation reports: shacl/src/validator/report/mod.rs, shacl/src/validator/report/result.rs,
    shacl/src/types/severity.rs 5-52; and the reading of paths from a graph:
    rudof_rdf/src/rdf_core/focus_rdf.rs 82-96, rudof_rdf/src/rdf_core/parser/rdf_node_parser/constructors/shacl.rs,
    list.rs, property.rs 17-143, utils.rs 290-342.

    Terms, graphs and paths are those of PathModel. The texts of blank nodes are numbered so that the label
    that new_from_unique_id makes of n is n. Stores do not fail, except where a literal is used as a subject.
    A HashSet is walked in an unknown order [ord]. Error values and log texts are left out. *)
From Coq Require Import List Bool NArith.
Import ListNotations.
From Verif Require Import PathModel.

(** The IRIs of the vocabularies (rdf_core/vocabs): different numbers for different IRIs. Any other IRI of a
    schema or graph is any number. *)
Definition rdf_type : N := 0.
Definition rdf_nil : N := 1.
Definition rdf_first : N := 2.
Definition rdf_rest : N := 3.
Definition sh_alternative : N := 4.
Definition sh_zero_or_more : N := 5.
Definition sh_one_or_more : N := 6.
Definition sh_zero_or_one : N := 7.
Definition sh_inverse : N := 8.
Definition sh_result : N := 9.
Definition sh_conforms : N := 10.
Definition sh_focus_node : N := 11.
Definition sh_severity : N := 12.
Definition sh_component : N := 13.
Definition sh_path : N := 14.
Definition sh_source : N := 15.
Definition sh_value : N := 16.
Definition sh_message : N := 17.
Definition sh_report_class : N := 18.
Definition sh_result_class : N := 19.
Definition sh_trace : N := 20.
Definition sh_debug : N := 21.
Definition sh_info : N := 22.
Definition sh_warning : N := 23.
Definition sh_violation : N := 24.
(** the literals that Object::boolean makes *)
Definition lit_false : N := 0.
Definition lit_true : N := 1.

(** types/severity.rs 5-13 *)
Inductive severity := Trace | Debug | Info | Warning | Violation | Generic (iri : N).
(** lines 15-26: the arms are tried from above *)
Definition severity_of_iri (i : N) : severity :=
  if N.eqb i sh_trace then Trace
  else if N.eqb i sh_debug then Debug
  else if N.eqb i sh_info then Info
  else if N.eqb i sh_warning then Warning
  else if N.eqb i sh_violation then Violation
  else Generic i.
(** lines 41-52 *)
Definition iri_of_severity (s : severity) : N :=
  match s with
  | Trace => sh_trace | Debug => sh_debug | Info => sh_info
  | Warning => sh_warning | Violation => sh_violation | Generic i => i
  end.
(** derived *)
Definition severity_eqb (a b : severity) : bool :=
  match a, b with
  | Trace, Trace | Debug, Debug | Info, Info | Warning, Warning | Violation, Violation => true
  | Generic i, Generic j => N.eqb i j
  | _, _ => false
  end.

(** report/result.rs 12-24. An Object is a [term]; the messages are the literals that iter_literals gives. *)
Record result := mkResult {
  r_focus : term;
  r_comp : term;
  r_sev : severity;
  r_path : option path;
  r_value : option term;
  r_source : option term;
  r_details : option (list term);
  r_msg : list N
}.
(** report/mod.rs 15-20; a prefix map is a number *)
Record report := mkReport { results : list result; nodes_pm : N; shapes_pm : N }.
Definition no_prefixes : N := 0.

(** derived equality of vectors and options *)
Fixpoint list_eqb {A} (eqb : A -> A -> bool) (l l' : list A) : bool :=
  match l, l' with
  | [], [] => true
  | x :: l, y :: l' => eqb x y && list_eqb eqb l l'
  | _, _ => false
  end.
Definition option_eqb {A} (eqb : A -> A -> bool) (a b : option A) : bool :=
  match a, b with Some x, Some y => eqb x y | None, None => true | _, _ => false end.
(** shacl_path.rs 13, derived *)
Fixpoint path_eqb (p q : path) {struct p} : bool :=
  match p, q with
  | PPred i, PPred j => N.eqb i j
  | PAlt ps, PAlt qs | PSeq ps, PSeq qs =>
      (fix all (ps qs : list path) : bool :=
         match ps, qs with
         | [], [] => true
         | p :: ps, q :: qs => path_eqb p q && all ps qs
         | _, _ => false
         end) ps qs
  | PInv p, PInv q | PStar p, PStar q | PPlus p, PPlus q | POpt p, POpt q => path_eqb p q
  | _, _ => false
  end.

Section Equality.
  (** PartialEq of Object *)
  Variable oeqb : term -> term -> bool.
  (** result.rs 283-293 *)
  Definition result_eqb (a b : result) : bool :=
    oeqb (r_focus a) (r_focus b) && oeqb (r_comp a) (r_comp b) && severity_eqb (r_sev a) (r_sev b) &&
    option_eqb path_eqb (r_path a) (r_path b) && option_eqb oeqb (r_value a) (r_value b) &&
    option_eqb oeqb (r_source a) (r_source b) && option_eqb (list_eqb oeqb) (r_details a) (r_details b).
  (** report/mod.rs 143-147 *)
  Definition report_eqb (a b : report) : bool :=
    Nat.eqb (length (results a)) (length (results b)) &&
    forallb (fun r => existsb (fun s => result_eqb s r) (results b)) (results a).
End Equality.
(** lines 67-69, 71-73 *)
Definition conforms (a : report) : bool := match results a with [] => true | _ => false end.
Definition get_count_of (a : report) (s : severity) : nat := length (filter (fun r => severity_eqb (r_sev r) s) (results a)).

(** ** Writing. rdf_impl/oxigraph/in_memory.rs 974-980 (add_bnode), 989-998 (add_triple). *)
Record writer := mkWriter { w_triples : graph; w_counter : N }.
Definition add_bnode (w : writer) : term * writer :=
  let n := N.succ (w_counter w) in (TBnode n, mkWriter (w_triples w) n).
Definition add_triple (w : writer) (s : term) (p : N) (o : term) : writer := mkWriter ((s, p, o) :: w_triples w) (w_counter w).

(** result.rs 231-244 *)
Definition with_predicate (w : writer) (p : N) (o : term) : term * writer :=
  let (n, w) := add_bnode w in (n, add_triple w n p o).
(** lines 247-264, from an element that has been written and the rest *)
Definition list_cell (w : writer) (x rest : term) : term * writer :=
  let (n, w) := add_bnode w in (n, add_triple (add_triple w n rdf_first x) n rdf_rest rest).
(** lines 202-227. The loop over the reversed list writes the last element first: here the rest is written
    before the element. *)
Fixpoint path_to_rdf (p : path) (w : writer) {struct p} : term * writer :=
  let cells := (fix cells (ps : list path) (w : writer) : term * writer :=
                  match ps with
                  | [] => (TIri rdf_nil, w)
                  | p :: ps =>
                      let (rest, w) := cells ps w in
                      let (x, w) := path_to_rdf p w in
                      list_cell w x rest
                  end) in
  match p with
  | PPred i => (TIri i, w)
  | PAlt ps => let (l, w) := cells ps w in with_predicate w sh_alternative l
  | PSeq ps => cells ps w
  | PInv q => let (t, w) := path_to_rdf q w in with_predicate w sh_inverse t
  | PStar q => let (t, w) := path_to_rdf q w in with_predicate w sh_zero_or_more t
  | PPlus q => let (t, w) := path_to_rdf q w in with_predicate w sh_one_or_more t
  | POpt q => let (t, w) := path_to_rdf q w in with_predicate w sh_zero_or_one t
  end.

Section Write.
  (** an Object as a term of the store: object.clone().into() *)
  Variable to_term : term -> term.
  (** lines 139-197 *)
  Definition result_to_rdf (r : result) (n : term) (w : writer) : writer :=
    let w := add_triple w n rdf_type (TIri sh_result_class) in
    let w := add_triple w n sh_focus_node (to_term (r_focus r)) in
    let w := add_triple w n sh_component (to_term (r_comp r)) in
    let w := add_triple w n sh_severity (TIri (iri_of_severity (r_sev r))) in
    let w := fold_left (fun w m => add_triple w n sh_message (TLit m)) (r_msg r) w in
    let w := match r_source r with Some t => add_triple w n sh_source (to_term t) | None => w end in
    let w := match r_path r with Some p => let (t, w) := path_to_rdf p w in add_triple w n sh_path t | None => w end in
    match r_value r with Some t => add_triple w n sh_value (to_term t) | None => w end.
  (** report/mod.rs 120-130 *)
  Fixpoint results_to_rdf (rs : list result) (n : term) (w : writer) : writer :=
    match rs with
    | [] => w
    | r :: rs =>
        let (m, w) := add_bnode w in
        let w := add_triple w n sh_result m in
        results_to_rdf rs n (result_to_rdf r m w)
    end.
  (** lines 93-134, with the report node, which the code does not return *)
  Definition report_to_rdf (a : report) (w : writer) : term * writer :=
    let (n, w) := add_bnode w in
    let w := add_triple w n rdf_type (TIri sh_report_class) in
    match results a with
    | [] => (n, add_triple w n sh_conforms (to_term (TLit lit_true)))
    | rs => (n, results_to_rdf rs n (add_triple w n sh_conforms (to_term (TLit lit_false))))
    end.
End Write.

(** ** Reading. A parser has the focus of the store as state (FocusRDF), which is always set here. *)
Definition parser (A : Type) : Type := term -> res A * term.
Definition pret {A} (a : A) : parser A := fun f => (Ok a, f).
Definition pfail {A} : parser A := fun f => (Err, f).
Definition pbind {A B} (p : parser A) (k : A -> parser B) : parser B := fun f =>
  match p f with
  | (Ok a, f) => k a f
  | (Err, f) => (Err, f)
  | (Panic, f) => (Panic, f)
  | (OutOfFuel, f) => (OutOfFuel, f)
  end.
(** if let Ok(path) = p(rdf) { return Ok(path) }: the focus stays where p left it *)
Definition porelse {A} (p q : parser A) : parser A := fun f => match p f with (Err, f) => q f | r => r end.
Definition get_focus : parser term := fun f => (Ok f, f).
Definition set_focus (t : term) : parser unit := fun _ => (Ok tt, t).
Fixpoint pmap {A B} (k : A -> parser B) (l : list A) : parser (list B) :=
  match l with [] => pret [] | x :: l => pbind (k x) (fun y => pbind (pmap k l) (fun ys => pret (y :: ys))) end.

Section Read.
  Variable ord : list term -> list term.
  Variable g : graph.

  (** property.rs 37-57: a focus that cannot be a subject has no values; 117-141 *)
  Definition single_value (p : N) : parser term := fun f =>
    match objects_for g f p with
    | Ok l => match ord l with t :: _ => (Ok t, f) | [] => (Err, f) end
    | _ => (Err, f)
    end.

  (** utils.rs 290-342; the fuel bounds the number of cells *)
  Fixpoint parse_list (fuel : nat) (visited : list term) : parser (list term) :=
    match fuel with
    | O => fun f => (OutOfFuel, f)
    | S fuel =>
        pbind get_focus (fun f =>
        if term_eqb f (TIri rdf_nil) then pret []
        else pbind (single_value rdf_first) (fun first =>
             pbind (single_value rdf_rest) (fun rest =>
             if tmem rest visited then pfail
             else pbind (set_focus rest) (fun _ =>
                  pbind (parse_list fuel (visited ++ [rest])) (fun l => pret (first :: l))))))
    end.
  (** list.rs 28-38 *)
  Definition list_parser (fuel : nat) : parser (list term) := pbind get_focus (fun f => parse_list fuel [f]).

  (** shacl.rs 30-199; the fuel bounds the depth of recursion *)
  Fixpoint path_parser (fuel : nat) (t : term) : parser path :=
    match fuel with
    | O => fun f => (OutOfFuel, f)
    | S fuel =>
        pbind (set_focus t) (fun _ =>
        let elements := pbind (list_parser fuel) (pmap (path_parser fuel)) in
        let under (p : N) (k : path -> path) := pbind (single_value p) (fun t => pbind (path_parser fuel t) (fun q => pret (k q))) in
        match t with
        | TIri i => pret (PPred i)
        | TBnode _ =>
            porelse (pbind elements (fun ps => pret (PSeq ps)))
            (porelse (pbind (single_value sh_alternative) (fun l => pbind (set_focus l) (fun _ => pbind elements (fun ps => pret (PAlt ps)))))
            (porelse (under sh_zero_or_more PStar)
            (porelse (under sh_one_or_more PPlus)
            (porelse (under sh_zero_or_one POpt)
            (porelse (under sh_inverse PInv) pfail)))))
        | TLit _ => pfail
        end)
    end.

  (** neighs_rdf.rs 295-303 with rdf.rs 277-282 *)
  Variable to_object : term -> option term.
  Definition object_for (s : term) (p : N) : res (option term) :=
    bind (objects_for g s p) (fun l =>
    match ord l with
    | [] => Ok None
    | t :: _ => match to_object t with Some o => Ok (Some o) | None => Err end
    end).
  (** focus_rdf.rs 82-96 *)
  Definition get_path_for (fuel : nat) (s : term) (p : N) (focus : term) : res (option path) * term :=
    match objects_for g s p with
    | Ok l =>
        match ord l with
        | [] => (Ok None, focus)
        | t :: _ => pbind (path_parser fuel t) (fun q => pret (Some q)) focus
        end
    | _ => (Err, focus)
    end.
  Definition required {A} (r : res (option A)) : res A := bind r (fun o => match o with Some a => Ok a | None => Err end).
  (** report/result.rs 97-137 *)
  Definition parse_result (fuel : nat) (n : term) : parser result := fun f =>
    match
      bind (required (object_for n sh_focus_node)) (fun focus =>
      bind (required (object_for n sh_severity)) (fun sev =>
      bind (match sev with TIri i => Ok (severity_of_iri i) | _ => Err end) (fun sev =>
      bind (required (object_for n sh_component)) (fun comp => Ok (focus, sev, comp)))))
    with
    | Ok (focus, sev, comp) =>
        pbind (get_path_for fuel n sh_path) (fun p f =>
          (bind (object_for n sh_source) (fun source =>
           bind (object_for n sh_value) (fun value =>
           Ok (mkResult focus comp sev p value source None []))), f)) f
    | Err => (Err, f) | Panic => (Panic, f) | OutOfFuel => (OutOfFuel, f)
    end.
  (** report/mod.rs 77-91; [pm] is the prefix map of the store *)
  Definition parse_report (fuel : nat) (n : term) (pm : option N) : parser report := fun f =>
    match objects_for g n sh_result with
    | Ok l => pbind (pmap (parse_result fuel) (ord l)) (fun rs =>
                pret (match pm with Some m => mkReport rs m m | None => mkReport rs no_prefixes no_prefixes end)) f
    | _ => (Err, f)
    end.
End Read.
