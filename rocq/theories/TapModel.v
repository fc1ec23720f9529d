(** Reading tables of application profiles (DCTAP): dctap/src/tap_reader.rs lines 85-118 (read_shape), 120-159
    (next_record, next_record_with_id), 161-183 (shape identifiers and labels), 185-234 (property identifiers),
    236-397 (statements), 412-467 (helpers), 487-497 (the iterator); tap_headers.rs lines 29-137;
    tap_reader_state.rs lines 58-72 (placeholder_id); tap_shape.rs lines 45-79; node_type.rs lines 18-48;
    placeholder_resolver.rs lines 20-24; tap_config.rs lines 153-158 (get_property_placeholder); dctap.rs lines
    44-70 (from_path, from_reader).

    Simplifications: the table has been split into records and cells (by the crates csv or calamine). Strings are
    lists of code points; white space above U+00A0 is left out; upper case is taken of the letters of ASCII only. Line
    numbers, warnings and traces are left out; errors carry no payload. *)
From Coq Require Import List Arith Bool String Ascii.
Import ListNotations.
From Verif Require Import CompModel.

(** ** strings *)
Definition str : Type := list nat.
Definition lit (s : string) : str := map nat_of_ascii (list_ascii_of_string s).
Fixpoint str_eqb (s t : str) : bool :=
  match s, t with
  | [], [] => true
  | a :: s, b :: t => Nat.eqb a b && str_eqb s t
  | _, _ => false
  end.
Definition is_nil {A} (l : list A) : bool := match l with [] => true | _ => false end.
(** [char::is_whitespace] *)
Definition is_space (c : nat) : bool :=
  ((9 <=? c) && (c <=? 13)) || existsb (Nat.eqb c) [32; 133; 160].
Fixpoint trim_start (s : str) : str :=
  match s with [] => [] | c :: r => if is_space c then trim_start r else s end.
(** [str::trim] *)
Definition trim (s : str) : str := rev (trim_start (rev (trim_start s))).
Definition upper (c : nat) : nat := if (97 <=? c) && (c <=? 122) then c - 32 else c.
Definition to_uppercase (s : str) : str := map upper s.
(** [str::split] at a character *)
Fixpoint split_at (d : nat) (s : str) : list str :=
  match s with
  | [] => [[]]
  | c :: r =>
      if Nat.eqb c d then [] :: split_at d r
      else match split_at d r with [] => [[c]] | p :: ps => (c :: p) :: ps end
  end.
(** [str::split_terminator] *)
Fixpoint drop_last_empty (l : list str) : list str :=
  match l with
  | [] => []
  | [[]] => []
  | p :: ps => p :: drop_last_empty ps
  end.
Definition split_terminator (d : nat) (s : str) : list str := drop_last_empty (split_at d s).
(** tap_reader.rs 460-463 *)
Definition strip_whitespace (s : str) : option str := match trim s with [] => None | t => Some t end.
(** 465-467 *)
Definition get_strs (s : str) : list str := filter (fun x => negb (is_nil x)) (split_at 32 s).
Fixpoint uint_str (d : Decimal.uint) : str :=
  match d with
  | Decimal.Nil => []
  | Decimal.D0 d => 48 :: uint_str d | Decimal.D1 d => 49 :: uint_str d | Decimal.D2 d => 50 :: uint_str d | Decimal.D3 d => 51 :: uint_str d | Decimal.D4 d => 52 :: uint_str d
  | Decimal.D5 d => 53 :: uint_str d | Decimal.D6 d => 54 :: uint_str d | Decimal.D7 d => 55 :: uint_str d | Decimal.D8 d => 56 :: uint_str d | Decimal.D9 d => 57 :: uint_str d
  end.

(** ** records and headers *)
Definition row : Type := list str.
Record headers := mkHeaders {
  h_shape : option nat; h_shape_label : option nat; h_property : option nat; h_property_label : option nat;
  h_repeatable : option nat; h_mandatory : option nat; h_datatype : option nat; h_nodetype : option nat;
  h_value_shape : option nat; h_constraint : option nat; h_constraint_type : option nat; h_note : option nat;
  h_extends : option nat; h_extends_label : option nat }.

(** tap_headers.rs 29-83; each field is the last column with the name *)
Fixpoint column (name : str) (idx : nat) (found : option nat) (r : row) : option nat :=
  match r with
  | [] => found
  | c :: r => column name (S idx) (if str_eqb (to_uppercase (trim c)) name then Some idx else found) r
  end.
Definition from_record (r : row) : headers :=
  let col s := column (lit s) 0 None r in
  mkHeaders (col "SHAPEID"%string) (col "SHAPELABEL"%string) (col "PROPERTYID"%string) (col "PROPERTYLABEL"%string)
            (col "REPEATABLE"%string) (col "MANDATORY"%string) (col "VALUEDATATYPE"%string) (col "VALUENODETYPE"%string)
            (col "VALUESHAPE"%string) (col "VALUECONSTRAINT"%string) (col "VALUECONSTRAINTTYPE"%string) (col "NOTE"%string)
            (col "EXTENDSID"%string) (col "EXTENDSLABEL"%string).
(** 84-137 *)
Definition cell (h : option nat) (r : row) : option str := match h with Some i => nth_error r i | None => None end.

(** ** statements and shapes *)
Inductive basic := BIri | BBnode | BLiteral.
Inductive nodetype := NBasic (b : basic) | NOr (l : list basic).
Inductive constraint := PickList (values : list str) | Pattern (s : str).
Record statement := mkStatement {
  s_property : str; s_label : option str; s_mandatory : option bool; s_repeatable : option bool; s_nodetype : option nodetype;
  s_datatypes : list str; s_value_shape : option str; s_constraint : option constraint; s_note : option str }.
Record tapshape := mkTapshape {
  t_id : option str; t_label : option str; t_statements : list statement; t_extends : list (str * option str) }.

(** tap_shape.rs 45-55 *)
Definition set_shape_id (id : str) (s : tapshape) : tapshape := mkTapshape (Some id) (t_label s) [] (t_extends s).
Definition set_shape_label (l : str) (s : tapshape) : tapshape := mkTapshape (t_id s) (Some l) [] (t_extends s).
(** 57-67 *)
Definition add_extends_label (l : str) (s : tapshape) : tapshape :=
  match t_extends s with
  | (e, _) :: r => mkTapshape (t_id s) (t_label s) (t_statements s) ((e, Some l) :: r)
  | [] => s
  end.
(** 69-75 *)
Definition add_extends_id (id : str) (s : tapshape) : tapshape := mkTapshape (t_id s) (t_label s) (t_statements s) (t_extends s ++ [(id, None)]).
Definition reset_extends (s : tapshape) : tapshape := mkTapshape (t_id s) (t_label s) (t_statements s) [].
(** 77-79 *)
Definition add_statement (st : statement) (s : tapshape) : tapshape := mkTapshape (t_id s) (t_label s) (t_statements s ++ [st]) (t_extends s).

Section Reader.
  (** the configuration: the separator of values, and the placeholders for property identifiers *)
  Variable picklist_delimiter : nat.
  Variable placeholders : list (str * str).
  Variable empty_placeholder : option str.
  Variable h : headers.

  (** tap_reader_state.rs 58-72 *)
  Fixpoint placeholder_id (v : str) (ids : list (str * nat)) : nat * list (str * nat) :=
    match ids with
    | [] => (0, [(v, 0)])
    | (w, k) :: r => if str_eqb v w then (S k, (w, S k) :: r) else let (i, r') := placeholder_id v r in (i, (w, k) :: r')
    end.
  (** tap_reader.rs 225-234, placeholder_resolver.rs 20-24 *)
  Definition generate (v stem : str) (ids : list (str * nat)) : option str * list (str * nat) :=
    let (i, ids') := placeholder_id v ids in (Some (stem ++ uint_str (Nat.to_uint i)), ids').
  Fixpoint assoc (k : str) (m : list (str * str)) : option str :=
    match m with [] => None | (k', v) :: r => if str_eqb k k' then Some v else assoc k r end.
  (** tap_reader.rs 185-223 *)
  Definition get_property_id (r : row) (ids : list (str * nat)) : option str * list (str * nat) :=
    match cell (h_property h) r with
    | Some s =>
        if is_nil s then
          match cell (h_property_label h) r with
          | Some l => if is_nil l then (None, ids)
                      else match empty_placeholder with Some stem => generate [] stem ids | None => (None, ids) end
          | None => (None, ids)
          end
        else match assoc s placeholders with
             | Some stem => generate (trim s) stem ids
             | None => (Some (trim s), ids)
             end
    | None => (None, ids)
    end.

  (** 439-454 *)
  Definition parse_boolean (s : str) : res bool :=
    let u := to_uppercase (trim s) in
    if existsb (str_eqb u) [lit ""; lit "NO"; lit "FALSE"; lit "0"] then Ok false
    else if existsb (str_eqb u) [lit "YES"; lit "TRUE"; lit "1"] then Ok true
    else Err.
  (** 416-427 *)
  Definition parse_node_type (s : str) : res basic :=
    let u := to_uppercase s in
    if existsb (str_eqb u) [lit "URI"; lit "IRI"] then Ok BIri
    else if str_eqb u (lit "BNODE") then Ok BBnode
    else if str_eqb u (lit "LITERAL") then Ok BLiteral
    else Err.
  (** node_type.rs 19-46, where the second is basic *)
  Definition merge_node_type (t : nodetype) (b : basic) : nodetype :=
    match t with NBasic a => NOr [a; b] | NOr l => NOr (l ++ [b]) end.

  (** 383-397 *)
  Definition read_bool (c : option nat) (r : row) : res (option bool) :=
    match cell c r with Some s => do b <- parse_boolean s; Ok (Some b) | None => Ok None end.
  (** 299-318 *)
  Fixpoint node_types (l : list str) (cur : option nodetype) : res (option nodetype) :=
    match l with
    | [] => Ok cur
    | s :: r => do b <- parse_node_type s;
                node_types r (Some (match cur with Some t => merge_node_type t b | None => NBasic b end))
    end.
  Definition read_nodetype (r : row) : res (option nodetype) :=
    match cell (h_nodetype h) r with Some s => node_types (get_strs s) None | None => Ok None end.
  (** 290-297 *)
  Definition read_datatypes (r : row) : list str :=
    match cell (h_datatype h) r with
    | Some s => match strip_whitespace s with Some t => get_strs t | None => [] end
    | None => []
    end.
  (** 320-327 *)
  Definition read_value_shape (r : row) : option str := match cell (h_value_shape h) r with Some s => strip_whitespace s | None => None end.
  (** 353-381: a list of values, a pattern, or another type, which is ignored *)
  Inductive ctype := CPickList | CPattern | COther.
  Definition read_constraint_type (r : row) : ctype :=
    match cell (h_constraint_type h) r with
    | Some s => match strip_whitespace s with
                | Some t => let u := to_uppercase t in
                            if str_eqb u (lit "PICKLIST") then CPickList else if str_eqb u (lit "PATTERN") then CPattern else COther
                | None => CPickList
                end
    | None => CPickList
    end.
  (** 329-351 with 456-458 *)
  Definition read_constraint (r : row) : option constraint :=
    match cell (h_constraint h) r with
    | Some s => match read_constraint_type r with
                | CPickList => match split_terminator picklist_delimiter s with [] => None | vs => Some (PickList vs) end
                | CPattern => Some (Pattern s)
                | COther => None
                end
    | None => None
    end.
  (** 253-260 *)
  Definition read_property_label (r : row) : option str :=
    match cell (h_property_label h) r with
    | Some s => match strip_whitespace s with Some t => Some (map (fun c => if Nat.eqb c 10 then 32 else c) t) | None => None end
    | None => None
    end.
  (** 262-268 *)
  Definition read_note (r : row) : option str := match cell (h_note h) r with Some s => if is_nil s then None else Some s | None => None end.

  (** 236-251 *)
  Definition record2statement (r : row) (ids : list (str * nat)) : res (option statement * list (str * nat)) :=
    match get_property_id r ids with
    | (Some p, ids') =>
        do m <- read_bool (h_mandatory h) r;
        do rp <- read_bool (h_repeatable h) r;
        do nt <- read_nodetype r;
        Ok (Some (mkStatement p (read_property_label r) m rp nt (read_datatypes r) (read_value_shape r) (read_constraint r) (read_note r)), ids')
    | (None, ids') => Ok (None, ids')
    end.
  Definition add_row (r : row) (s : tapshape) (ids : list (str * nat)) : res (tapshape * list (str * nat)) :=
    do (o, ids') <- record2statement r ids;
    Ok (match o with Some st => add_statement st s | None => s end, ids').

  (** 412-414 *)
  Definition is_empty_record (r : row) : bool := forallb (fun c => is_nil (trim c)) r.
  (** 161-168 *)
  Definition get_shape_id (r : row) : option str := option_map trim (cell (h_shape h) r).
  (** 429-437 *)
  Definition same_shape_id (a b : option str) : bool :=
    match a, b with
    | None, None => true
    | Some _, None => true
    | Some s1, Some s2 => is_nil s2 || str_eqb s1 s2
    | None, Some _ => false
    end.

  (** 111-116 with 134-149: the rows of the shape, the first row of the next one, and the rows after it *)
  Fixpoint more_rows (id : option str) (rows : list row) (s : tapshape) (ids : list (str * nat))
    : res (option row * list row * tapshape * list (str * nat)) :=
    match rows with
    | [] => Ok (None, [], s, ids)
    | r :: rs =>
        if same_shape_id id (get_shape_id r) then do (s', ids') <- add_row r s ids; more_rows id rs s' ids'
        else Ok (Some r, rs, s, ids)
    end.

  Record rstate := mkRstate { r_cached : option row; r_rows : list row; r_shape : tapshape; r_ids : list (str * nat) }.
  Fixpoint skip_empty (rows : list row) : option (row * list row) :=
    match rows with [] => None | r :: rs => if is_empty_record r then skip_empty rs else Some (r, rs) end.
  (** 86-97 with 120-132 *)
  Definition first_row (s : rstate) : option (row * list row) :=
    match r_cached s with
    | Some r => if is_empty_record r then skip_empty (r_rows s) else Some (r, r_rows s)
    | None => skip_empty (r_rows s)
    end.
  (** 98-106 with 170-183, 270-288 *)
  Definition new_shape (r : row) (s : tapshape) : tapshape :=
    let s := match get_shape_id r with Some id => reset_extends (set_shape_id id s) | None => s end in
    let s := match cell (h_shape_label h) r with Some l => set_shape_label (trim l) s | None => s end in
    let s := match cell (h_extends h) r with
             | Some e => match strip_whitespace e with Some e => add_extends_id e s | None => s end
             | None => s
             end in
    match cell (h_extends_label h) r with Some l => if is_nil l then s else add_extends_label l s | None => s end.
  (** 85-118 *)
  Definition read_shape (s : rstate) : res (option rstate) :=
    match first_row s with
    | None => Ok None
    | Some (r, rows) =>
        do (sh, ids) <- add_row r (new_shape r (r_shape s)) (r_ids s);
        do (c, rows', sh', ids') <- more_rows (get_shape_id r) rows sh ids;
        Ok (Some (mkRstate c rows' sh' ids'))
    end.

  (** 487-497 and dctap.rs 44-70: until there are no rows left, or an error *)
  Fixpoint read_shapes (fuel : nat) (s : rstate) : res (list tapshape) :=
    match fuel with
    | 0 => OutOfFuel
    | S f =>
        do o <- read_shape s;
        match o with
        | None => Ok []
        | Some s' => do l <- read_shapes f s'; Ok (r_shape s' :: l)
        end
    end.
End Reader.

(** the rows after the headers; every shape takes at least one *)
Definition read_tap (delimiter : nat) (placeholders : list (str * str)) (empty_placeholder : option str) (table : list row) : res (list tapshape) :=
  match table with
  | [] => Ok []
  | hr :: rows =>
      read_shapes delimiter placeholders empty_placeholder (from_record hr) (S (Datatypes.length rows)) (mkRstate None rows (mkTapshape None None [] []) [])
  end.
