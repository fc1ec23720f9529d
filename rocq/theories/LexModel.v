(** Reading the terminals of the compact syntax, character by character.

    The program: the last part of shex_ast/src/compact/shex_grammar.rs (lines
    given below), the white space of shex_ast/src/compact/grammar.rs:70-112 and the
    combinators of nom they use.

    What is simplified here:
    - a character is its code point, a number; a text is a list of characters
      (positions are not kept);
    - errors carry no message: [Err] is nom's recoverable error, [Fail] the
      failure made by [cut], [Panic] a panic;
    - [recognize p] is written out: the text that is used up;
    - language tags are kept as they are written ([Lang::new] normalises them
      and does not refuse what [lang_tag] has recognised: its fallback
      [is_syntactically_valid_lang], lang.rs:53-65, is the same grammar);
    - the numbers of [integer] are unbounded up to the size of [i128]. *)
From Coq Require Import List NArith ZArith Bool.
Import ListNotations.
Local Open Scope N_scope.

Definition char := N.
Definition str := list char.

Inductive res (A : Type) := Ok (v : A) (r : str) | Err | Fail | Panic.
Arguments Ok {A}. Arguments Err {A}. Arguments Fail {A}. Arguments Panic {A}.
Definition parser (A : Type) := str -> res A.

(** * Combinators of nom *)

Definition bind {A B} (x : res A) (k : A -> parser B) : res B :=
  match x with Ok v r => k v r | Err => Err | Fail => Fail | Panic => Panic end.
Definition pmap {A B} (f : A -> B) (p : parser A) : parser B :=
  fun i => match p i with Ok v r => Ok (f v) r | Err => Err | Fail => Fail | Panic => Panic end.
Definition alt {A} (p q : parser A) : parser A := fun i => match p i with Err => q i | x => x end.
Definition popt {A} (p : parser A) : parser (option A) :=
  fun i => match p i with Ok v r => Ok (Some v) r | Err => Ok None i | Fail => Fail | Panic => Panic end.
Definition cut {A} (p : parser A) : parser A := fun i => match p i with Err => Fail | x => x end.
(** What is used up between two positions. *)
Definition used (i r : str) : str := firstn (length i - length r) i.
Definition recognize {A} (p : parser A) : parser str :=
  fun i => match p i with Ok _ r => Ok (used i r) r | Err => Err | Fail => Fail | Panic => Panic end.
(** [many0]: an error when nothing is used up; the number bounds the repetitions. *)
Fixpoint many {A} (n : nat) (p : parser A) (i : str) : res (list A) :=
  match n with
  | O => Err
  | S n => match p i with
           | Ok v r => if Nat.eqb (length r) (length i) then Err else pmap (cons v) (many n p) r
           | Err => Ok [] i
           | Fail => Fail
           | Panic => Panic
           end
  end.
Definition many0 {A} (p : parser A) : parser (list A) := fun i => many (S (length i)) p i.
Definition many1 {A} (p : parser A) : parser (list A) :=
  fun i => bind (p i) (fun v r => pmap (cons v) (many0 p) r).
Fixpoint count {A} (n : nat) (p : parser A) : parser (list A) :=
  fun i => match n with
           | O => Ok [] i
           | S n => bind (p i) (fun v => pmap (cons v) (count n p))
           end.

Definition satisfy (f : char -> bool) : parser char :=
  fun i => match i with c :: r => if f c then Ok c r else Err | [] => Err end.
Definition is (c : char) : parser char := satisfy (N.eqb c).
Definition among (s : str) (c : char) : bool := existsb (N.eqb c) s.
Definition one_of (s : str) : parser char := satisfy (among s).
Definition none_of (s : str) : parser char := satisfy (fun c => negb (among s c)).
Fixpoint tag (t : str) : parser str :=
  fun i => match t with
           | [] => Ok [] i
           | c :: t => match i with
                       | d :: r => if c =? d then pmap (cons c) (tag t) r else Err
                       | [] => Err
                       end
           end.
Fixpoint take_while (f : char -> bool) (i : str) : res str :=
  match i with
  | c :: r => if f c then pmap (cons c) (take_while f) r else Ok [] i
  | [] => Ok [] []
  end.
Definition take_while1 (f : char -> bool) : parser str :=
  fun i => match take_while f i with Ok [] _ => Err | x => x end.
(** [one_if] (2158-2171): [take_split(1)] splits after one byte, which is a panic
    inside a character that is longer. *)
Definition one_if (f : char -> bool) : parser char :=
  fun i => match i with
           | c :: r => if f c then if c <? 128 then Ok c r else Panic else Err
           | [] => Err
           end.

(** * Characters (2113-2155) *)

Definition in_range (c lower upper : N) : bool := (lower <=? c) && (c <=? upper).
Definition is_digit (c : char) : bool := in_range c 48 57.
Definition is_alpha (c : char) : bool := in_range c 97 122 || in_range c 65 90.
Definition is_pn_chars_base (c : char) : bool :=
  is_alpha c || in_range c 0xC0 0xD6 || in_range c 0xD8 0xF6 || in_range c 0xF8 0x2FF
  || in_range c 0x370 0x37D || in_range c 0x37F 0x1FFF || in_range c 0x200C 0x200D
  || in_range c 0x2070 0x218F || in_range c 0x2C00 0x2FEF || in_range c 0x3001 0xD7FF
  || in_range c 0xF900 0xFDCF || in_range c 0xFDF0 0xFFFD || in_range c 0x10000 0xEFFFF.
Definition is_pn_chars_u (c : char) : bool := (c =? 95) || is_pn_chars_base c.
Definition is_pn_chars (c : char) : bool :=
  is_pn_chars_u c || (c =? 45) || is_digit c || (c =? 0xB7) || in_range c 0x300 0x36F || in_range c 0x203F 0x2040.
(** [is_hex] (1943-1945). *)
Definition is_hex (c : char) : bool := is_digit c || in_range c 97 102 || in_range c 65 70.
(** [is_iri_ref] (2051-2053): none of the nine forbidden signs, and above the space. *)
Definition is_iri_ref (c : char) : bool := (32 <? c) && negb (among [60; 62; 34; 123; 125; 124; 94; 96; 92] c).

(** * Escapes *)

Definition hex_value (c : char) : N :=
  if is_digit c then c - 48 else if 97 <=? c then c - 87 else c - 55.
Definition from_hex (s : str) : N := fold_left (fun n c => 16 * n + hex_value c) s 0.
(** [char::from_u32]. *)
Definition scalar (n : N) : bool := (n <? 0xD800) || (in_range n 0xE000 0x10FFFF).
(** [hex] (1381-1383, 1410), [uchar] (1422-1430) with [unescape_uchar] (2004-2043): the digits are known
    to be there; [unwrap] panics on a number that is no character. *)
Definition hex : parser char := one_of
  [48; 49; 50; 51; 52; 53; 54; 55; 56; 57; 65; 66; 67; 68; 69; 70; 97; 98; 99; 100; 101; 102].
Definition uchar : parser char := fun i =>
  bind (alt (fun i => bind (tag [92; 117] i) (fun _ => count 4 hex))
            (fun i => bind (tag [92; 85] i) (fun _ => count 8 hex)) i)
    (fun ds r => if scalar (from_hex ds) then Ok (from_hex ds) r else Panic).
(** [echar] (1434-1448): t, b, n, r, f, the two quotes and the backslash. *)
Definition echar_value (c : char) : char :=
  if c =? 116 then 9 else if c =? 98 then 8 else if c =? 110 then 10 else if c =? 114 then 13
  else if c =? 102 then 12 else c.
Definition echar : parser char := fun i =>
  bind (tag [92] i) (fun _ => pmap echar_value (one_of [116; 98; 110; 114; 102; 34; 39; 92])).

(** * Strings (1314-1379, 1414-1418) *)

Definition delimited {A} (q : str) (p : parser A) : parser A := fun i =>
  bind (tag q i) (fun _ i => bind (p i) (fun v i => bind (tag q i) (fun _ r => Ok v r))).
Definition string_char (stop : str) : parser char := alt (none_of stop) (alt echar uchar).
Definition string_literal1 : parser str := delimited [39] (many0 (string_char [39; 92; 10; 13])).
Definition string_literal2 : parser str := delimited [34] (cut (many0 (string_char [34; 92; 10; 13]))).
Definition string_literal_long1 : parser str := delimited [39; 39; 39] (cut (many0 (string_char [39; 92]))).
Definition string_literal_long2 : parser str := delimited [34; 34; 34] (cut (many0 (string_char [34; 92]))).
Definition string : parser str :=
  alt string_literal_long1 (alt string_literal_long2 (alt string_literal1 string_literal2)).

(** * Names (1732-1815, 1882-1983, 2046-2101) *)

(** [iri_ref] (1949-1958), [iri_chars], [iri_char] (1974-1984). *)
Definition iri_ref : parser str := fun i =>
  bind (is 60 i) (fun _ i => bind (many0 (alt (satisfy is_iri_ref) uchar) i)
    (fun s i => bind (is 62 i) (fun _ r => Ok s r))).

(** [pn_prefix] (2062-2086), [pname_ns] (2056-2059). *)
Definition char_dot : parser char := is 46.
Definition pn_prefix : parser str := recognize (fun i =>
  bind (satisfy is_pn_chars_base i) (fun _ i => bind (take_while is_pn_chars i) (fun _ =>
    many0 (fun i => bind (char_dot i) (fun _ => take_while1 is_pn_chars))))).
Definition pname_ns : parser str := fun i =>
  bind (popt pn_prefix i) (fun o i => bind (is 58 i) (fun _ r => Ok match o with Some p => p | None => [] end r)).

(** [pn_local_esc] (1935-1937): after a backslash one of twenty signs; [percent]
    (1939-1941), [plx] (1928-1930). *)
Definition local_escapes : str :=
  [95; 126; 46; 45; 33; 36; 38; 39; 40; 41; 42; 43; 44; 59; 61; 47; 63; 35; 64; 37].
Definition pn_local_esc : parser str := recognize (fun i =>
  bind (is 92 i) (fun _ => one_if (among local_escapes))).
Definition percent : parser str := recognize (fun i =>
  bind (is 37 i) (fun _ i => bind (one_if is_hex i) (fun _ => one_if is_hex))).
Definition plx : parser str := alt percent pn_local_esc.
(** [pn_local] (1889-1926): a dot at the end is kept. *)
Definition is_pn_local_start (c : char) : bool := (c =? 58) || is_digit c || is_pn_chars_u c.
Definition is_pn_chars_colon (c : char) : bool := (c =? 58) || is_pn_chars c.
Definition pn_local3 : parser str := recognize
  (many0 (alt (take_while1 is_pn_chars_colon) (alt plx (recognize char_dot)))).
Definition pn_local : parser str := recognize (fun i =>
  bind (alt (recognize (one_if is_pn_local_start)) plx i) (fun _ => pn_local3)).
(** [pname_ln] (1882-1886), [prefixed_name] (1742-1750, 1768-1771), [iri] (1732-1739). *)
Inductive iri_ := Iri (s : str) | Prefixed (p l : str).
Definition pname_ln : parser iri_ := fun i => bind (pname_ns i) (fun p => pmap (Prefixed p) pn_local).
Definition prefixed_name : parser iri_ := alt pname_ln (pmap (fun p => Prefixed p []) pname_ns).
Definition iri : parser iri_ := alt (pmap Iri iri_ref) prefixed_name.

(** [blank_node_label] (1781-1815): a dot at the end is kept. *)
Definition is_pn_chars_u_digit (c : char) : bool := is_digit c || is_pn_chars_u c.
Definition is_pn_chars_or_dot (c : char) : bool := (c =? 46) || is_pn_chars c.
Definition blank_node_label : parser str := fun i =>
  bind (tag [95; 58] i) (fun _ => recognize (fun i =>
    bind (one_if is_pn_chars_u_digit i) (fun _ => take_while is_pn_chars_or_dot))).

(** * Numbers (1190-1233, 1818-1832, 1869-1879) *)

Definition digit0 : parser str := take_while is_digit.
Definition digit1 : parser str := take_while1 is_digit.
Definition sign : parser char := one_of [43; 45].
Definition exponent : parser str := recognize (fun i =>
  bind (one_of [101; 69] i) (fun _ i => bind (popt sign i) (fun _ => digit1))).
Inductive numeric := Integer | Decimal | Double.
Definition double_raw : parser (str * numeric) := pmap (fun s => (s, Double)) (recognize (fun i =>
  bind (popt sign i) (fun _ =>
    alt (recognize (fun i => bind (digit1 i) (fun _ i => bind (is 46 i) (fun _ i => bind (digit0 i) (fun _ => exponent)))))
   (alt (recognize (fun i => bind (is 46 i) (fun _ i => bind (digit1 i) (fun _ => exponent))))
        (recognize (fun i => bind (digit1 i) (fun _ => exponent))))))).
Definition decimal_raw : parser (str * numeric) := pmap (fun s => (s, Decimal)) (recognize (fun i =>
  bind (popt sign i) (fun _ i => bind (digit0 i) (fun _ i => bind (is 46 i) (fun _ => digit1))))).
Definition integer_raw : parser (str * numeric) := pmap (fun s => (s, Integer)) (recognize (fun i =>
  bind (popt sign i) (fun _ => digit1))).
Definition numeric_literal : parser (str * numeric) := alt double_raw (alt decimal_raw integer_raw).

(** [digits] (1877-1879), [integer] (1818-1832). *)
Definition from_digits (s : str) : Z := fold_left (fun n c => (10 * n + Z.of_N (c - 48))%Z) s 0%Z.
Definition digits : parser Z := fun i =>
  bind (digit1 i) (fun s r => if (from_digits s <? 2 ^ 127)%Z then Ok (from_digits s) r else Err).
Definition integer : parser Z := fun i =>
  bind (popt sign i) (fun s => pmap (fun n => match s with Some 45 => (- n)%Z | _ => n end) digits).

(** * Literals (1286-1310, 1451-1464) *)

Definition is_alphanum (c : char) : bool := is_alpha c || is_digit c.
Definition lang_tag : parser str := fun i =>
  bind (tag [64] i) (fun _ => recognize (fun i => bind (take_while1 is_alpha i) (fun _ =>
    many0 (fun i => bind (tag [45] i) (fun _ => take_while1 is_alphanum))))).
Inductive lit := Plain (s : str) | Tagged (s lang : str) | Typed (s : str) (d : iri_) | Number (s : str) (n : numeric) | Bool (b : bool).
Definition rdf_literal : parser lit := fun i =>
  bind (string i) (fun s i =>
    bind (popt (alt (pmap (Tagged s) lang_tag) (fun i => bind (tag [94; 94] i) (fun _ => pmap (Typed s) iri))) i)
      (fun o r => Ok match o with Some l => l | None => Plain s end r)).

(** * White space (grammar.rs:70-91, 108-112) *)

Definition is_space (c : char) : bool := (c =? 32) || (c =? 9) || (c =? 13) || (c =? 10).
Definition line_end (c : char) : bool := (c =? 10) || (c =? 13).
(** [take_until]: an error if it does not occur. *)
Fixpoint take_until (t : str) (i : str) : res str :=
  match tag t i with
  | Ok _ _ => Ok [] i
  | _ => match i with
         | c :: r => pmap (cons c) (take_until t) r
         | [] => Err
         end
  end.
Definition multi_comment : parser unit := fun i =>
  bind (tag [47; 42] i) (fun _ i => bind (take_until [42; 47] i) (fun _ => pmap (fun _ => tt) (tag [42; 47]))).
Definition comment : parser unit :=
  alt (fun i => bind (tag [35] i) (fun _ => pmap (fun _ => tt) (take_while1 (fun c => negb (line_end c)))))
 (alt (pmap (fun _ => tt) (tag [35])) multi_comment).
Definition tws0 : parser unit :=
  pmap (fun _ => tt) (many0 (alt (pmap (fun _ => tt) (take_while1 is_space)) comment)).
Definition token_tws (t : str) : parser unit := fun i =>
  bind (tws0 i) (fun _ i => bind (tag t i) (fun _ => tws0)).
(** [boolean_value] (1275-1281), [literal] (1181-1192). *)
Definition boolean : parser lit :=
  alt (pmap (fun _ => Bool true) (token_tws [116; 114; 117; 101]))
      (pmap (fun _ => Bool false) (token_tws [102; 97; 108; 115; 101])).
Definition literal : parser lit :=
  alt rdf_literal (alt (pmap (fun x => Number (fst x) (snd x)) numeric_literal) boolean).

(** * Regular expressions and code (1503-1512, 1564-1578, 1640-1729) *)

(** [escaped_pattern] (1717-1720): after a backslash one of nineteen signs. *)
Definition pattern_escapes : str :=
  [110; 114; 116; 92; 124; 46; 63; 42; 43; 40; 41; 123; 125; 36; 45; 91; 93; 94; 47].
Definition escaped_pattern : parser str := fun i =>
  bind (tag [92] i) (fun _ => pmap (fun c => [92; c]) (one_of pattern_escapes)).
(** [pattern] (1705-1714, 1724). *)
Definition pattern : parser str := pmap (@concat char)
  (many1 (alt (pmap (fun c => [c]) (none_of [47; 92; 10; 13])) (alt escaped_pattern (pmap (fun c => [c]) uchar)))).
(** [unescape_pattern] (1653-1702): [None] is a panic; all escapes but the one
    of the slash are kept; unicode escapes are resolved (again). *)
Definition kept_escapes : str :=
  [110; 114; 116; 92; 124; 46; 63; 42; 43; 40; 41; 123; 125; 36; 45; 91; 93; 94].
Fixpoint take_n (n : nat) (s : str) : option (str * str) :=
  match n, s with
  | O, _ => Some ([], s)
  | S n, c :: s => match take_n n s with Some (a, b) => Some (c :: a, b) | None => None end
  | S _, [] => None
  end.
(** [u32::from_str_radix]: a plus sign in front is passed over. *)
Definition from_str_radix (s : str) : option N :=
  let s := match s with 43 :: s => s | _ => s end in
  match s with [] => None | _ => if forallb is_hex s then Some (from_hex s) else None end.
Fixpoint unescape (n : nat) (s : str) : option str :=
  match n with
  | O => Some []
  | S n =>
      match s with
      | [] => Some []
      | c :: s =>
          if negb (c =? 92) then option_map (cons c) (unescape n s)
          else
            let uni k s :=
              match take_n k s with
              | None => None
              | Some (a, s) =>
                  match from_str_radix a with
                  | Some u => if scalar u then option_map (cons u) (unescape n s) else None
                  | None => None
                  end
              end in
            match s with
            | [] => None
            | d :: s =>
                if among kept_escapes d then option_map (fun x => 92 :: d :: x) (unescape n s)
                else if d =? 117 then uni 4%nat s
                else if d =? 85 then uni 8%nat s
                else option_map (cons d) (unescape n s)
            end
      end
  end.
Definition unescape_pattern (s : str) : option str := unescape (length s) s.
(** [flags] (1727-1729), [regexp] (1640-1650). *)
Definition flags : parser str := take_while (among [115; 109; 105; 120]).
Definition regexp : parser (str * option str) := fun i =>
  bind (is 47 i) (fun _ i => bind (pattern i) (fun s i => bind (cut (is 47) i) (fun _ i =>
    bind (flags i) (fun f r =>
      match unescape_pattern s with
      | Some s => Ok (s, match f with [] => None | _ => Some f end) r
      | None => Panic
      end)))).

(** [code] (1503-1512), [code_str], [escaped_code] (1564-1578). *)
Definition escaped_code : parser char := fun i => bind (tag [92] i) (fun _ => one_of [37; 92]).
Definition code_str : parser str := many0 (alt (none_of [37; 92]) (alt escaped_code uchar)).
Definition code : parser str := fun i =>
  bind (is 123 i) (fun _ i => bind (cut code_str i) (fun s i => bind (cut (is 37) i) (fun _ i =>
    bind (tws0 i) (fun _ i => bind (cut (is 125) i) (fun _ r => Ok s r))))).

(** * Writing terminals (shex_compact_printer.rs)

    [pp_string] (519-526), [pp_iri_unqualified] (840-843), [pp_pattern]
    (619-626), [pp_iri_ref] (745-754) and [pp_action] (793-805). *)
Definition pp_string (s : str) : str := [34] ++ s ++ [34].
Definition pp_iri (s : str) : str := [60] ++ s ++ [62].
Definition pp_pattern (p : str * option str) : str :=
  [47] ++ fst p ++ [47] ++ match snd p with Some f => f | None => [] end.
Definition pp_name (p l : str) : str := p ++ [58] ++ l.
Definition pp_code (s : str) : str := [123] ++ s ++ [37; 125].
