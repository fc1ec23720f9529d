(** The terminals of the compact syntax, as the grammar of ShEx defines them.

    https://shex.io/shex-semantics/#shexc-terminals: a terminal is a set of words,
    and a word has a meaning (the characters it stands for).  A reader of a
    terminal takes the longest word a text starts with. *)
From Coq Require Import List NArith Bool.
From Verif Require Import LexModel.
Import ListNotations.
Local Open Scope N_scope.

Definition lang (A : Type) := str -> A -> Prop.

(** * Building languages *)

Definition one (P : char -> Prop) : lang char := fun w c => w = [c] /\ P c.
Definition either {A} (L M : lang A) : lang A := fun w v => L w v \/ M w v.
Definition between {A} (a : str) (L : lang A) (b : str) : lang A := fun w v => exists m, w = a ++ m ++ b /\ L m v.
Definition follow {A B C} (L : lang A) (M : lang B) (f : A -> B -> C) : lang C := fun w v =>
  exists w1 w2 a b, w = w1 ++ w2 /\ v = f a b /\ L w1 a /\ M w2 b.
Inductive star {A} (L : lang A) : lang (list A) :=
| star_nil : star L [] []
| star_cons w v ws vs : L w v -> star L ws vs -> star L (w ++ ws) (v :: vs).
(** A word that means itself. *)
Definition itself (L : str -> Prop) : lang str := fun w v => v = w /\ L w.

(** * Reading *)

(** [p] reads the language [L]: it takes the longest word of [L], which has the
    meaning [p] gives and no other; it refuses a text only if it starts with no
    word of [L]; it panics only on the texts of [bad]. *)
Definition reads {A} (bad : str -> Prop) (p : parser A) (L : lang A) : Prop := forall i,
  match p i with
  | Ok v r => exists w, i = w ++ r /\ (forall v', L w v' <-> v' = v) /\
                (forall w' r' v', i = w' ++ r' -> L w' v' -> (length w' <= length w)%nat)
  | Err | Fail => forall w r v, i = w ++ r -> ~ L w v
  | Panic => bad i
  end.
(** What [p] makes of a text that starts with a longest word. *)
Definition longest {A} (L : lang A) (i w r : str) : Prop :=
  i = w ++ r /\ forall w' r' v', i = w' ++ r' -> L w' v' -> (length w' <= length w)%nat.

Definition never (i : str) : Prop := False.

(** * Characters *)

Definition within (rs : list (N * N)) (c : char) : Prop := exists r, In r rs /\ fst r <= c <= snd r.
Definition digit (c : char) : Prop := 48 <= c <= 57.
Definition letter (c : char) : Prop := 65 <= c <= 90 \/ 97 <= c <= 122.
Definition PN_CHARS_BASE : char -> Prop := within
  [(65, 90); (97, 122); (0xC0, 0xD6); (0xD8, 0xF6); (0xF8, 0x2FF); (0x370, 0x37D); (0x37F, 0x1FFF); (0x200C, 0x200D);
   (0x2070, 0x218F); (0x2C00, 0x2FEF); (0x3001, 0xD7FF); (0xF900, 0xFDCF); (0xFDF0, 0xFFFD); (0x10000, 0xEFFFF)].
Definition PN_CHARS_U (c : char) : Prop := PN_CHARS_BASE c \/ c = 95.
Definition PN_CHARS (c : char) : Prop :=
  PN_CHARS_U c \/ c = 45 \/ digit c \/ c = 0xB7 \/ 0x300 <= c <= 0x36F \/ 0x203F <= c <= 0x2040.
(** The digits of hexadecimal numbers and their values. *)
Definition hex_digit (c d : N) : Prop :=
  48 <= c <= 57 /\ d = c - 48 \/ 65 <= c <= 70 /\ d = c - 65 + 10 \/ 97 <= c <= 102 /\ d = c - 97 + 10.
Inductive numeral : str -> N -> Prop :=
| numeral_nil : numeral [] 0
| numeral_snoc s n c d : numeral s n -> hex_digit c d -> numeral (s ++ [c]) (16 * n + d).
(** Unicode: the surrogates are no characters. *)
Definition character (n : N) : Prop := n <= 0x10FFFF /\ ~ 0xD800 <= n <= 0xDFFF.

(** * Escapes *)

Definition code_point (w : str) (n : N) : Prop := exists ds, numeral ds n /\
  (w = [92; 117] ++ ds /\ length ds = 4%nat \/ w = [92; 85] ++ ds /\ length ds = 8%nat).
Definition UCHAR : lang char := fun w c => code_point w c /\ character c.
Definition ECHAR : lang char := fun w v => exists c, w = [92; c] /\
  In (c, v) [(116, 9); (98, 8); (110, 10); (114, 13); (102, 12); (34, 34); (39, 39); (92, 92)].
(** A text with an escape that stands for no character. *)
Definition no_character (i : str) : Prop := exists a w b n, i = a ++ w ++ b /\ code_point w n /\ ~ character n.

(** * Strings *)

(** The characters that are not in [stop], or escaped. *)
Definition char_but (stop : list N) : lang char :=
  either (one (fun c => ~ In c stop)) (either ECHAR UCHAR).
Definition STRING_LITERAL1 : lang str := between [39] (star (char_but [39; 92; 10; 13])) [39].
Definition STRING_LITERAL2 : lang str := between [34] (star (char_but [34; 92; 10; 13])) [34].
(** Long strings: up to [n] quotes in front of each character (two, in ShEx). *)
Definition quoted (n : nat) (q : N) : lang str := fun w v => exists k u c,
  (k <= n)%nat /\ w = repeat q k ++ u /\ v = repeat q k ++ [c] /\ char_but [q; 92] u c.
Definition long (n : nat) (q : N) : lang str := fun w v => exists vs, v = concat vs /\
  between [q; q; q] (star (quoted n q)) [q; q; q] w vs.
Definition strings (n : nat) : lang str :=
  either (either (long n 39) (long n 34)) (either STRING_LITERAL1 STRING_LITERAL2).
Definition STRING : lang str := strings 2.

(** * Names *)

Definition IRIREF : lang str := between [60]
  (star (either (one (fun c => 32 < c /\ ~ In c [60; 62; 34; 123; 125; 124; 94; 96; 92])) UCHAR)) [62].
Definition dot_or (P : char -> Prop) (c : char) : Prop := c = 46 \/ P c.
Definition PN_PREFIX (w : str) : Prop := exists c s, w = c :: s /\ PN_CHARS_BASE c /\
  (s = [] \/ exists m d, s = m ++ [d] /\ Forall (dot_or PN_CHARS) m /\ PN_CHARS d).
Definition PNAME_NS : lang str := fun w p => w = p ++ [58] /\ (p = [] \/ PN_PREFIX p).

(** Local names: characters, escapes and the hexadecimal digits after a percent
    sign.  [esc] is the meaning of the escape of a character. *)
Definition PERCENT : lang str := itself (fun w => exists a b d e, w = [37; a; b] /\ hex_digit a d /\ hex_digit b e).
Definition PN_LOCAL_ESC (esc : char -> str) : lang str := fun w v => exists c, w = [92; c] /\ v = esc c /\
  In c [95; 126; 46; 45; 33; 36; 38; 39; 40; 41; 42; 43; 44; 59; 61; 47; 63; 35; 64; 37].
Definition piece (esc : char -> str) (P : char -> Prop) : lang str :=
  either (fun w v => exists c, w = [c] /\ v = [c] /\ P c) (either PERCENT (PN_LOCAL_ESC esc)).
Definition LOCAL_START (c : char) : Prop := PN_CHARS_U c \/ c = 58 \/ digit c.
Definition LOCAL_CHAR (c : char) : Prop := PN_CHARS c \/ c = 58.
(** [PN_LOCAL]: the last piece is no dot. *)
Definition pn_local_rest (esc : char -> str) : lang str := fun w v =>
  w = [] /\ v = [] \/
  follow (star (piece esc (dot_or LOCAL_CHAR))) (piece esc LOCAL_CHAR) (fun vs v => concat vs ++ v) w v.
Definition pn_local_of (esc : char -> str) : lang str :=
  follow (piece esc LOCAL_START) (pn_local_rest esc) (@app char).
(** A backslash in front of a character is not a part of the name. *)
Definition PN_LOCAL : lang str := pn_local_of (fun c => [c]).
(** The same with dots at the end. *)
Definition local_dots (esc : char -> str) : lang str :=
  follow (piece esc LOCAL_START) (star (piece esc (dot_or LOCAL_CHAR))) (fun v vs => v ++ concat vs).

Definition BLANK_NODE_LABEL : lang str := fun w l => w = [95; 58] ++ l /\ exists c s, l = c :: s /\
  (PN_CHARS_U c \/ digit c) /\ (s = [] \/ exists m d, s = m ++ [d] /\ Forall (dot_or PN_CHARS) m /\ PN_CHARS d).
Definition label_dots : lang str := fun w l => w = [95; 58] ++ l /\ exists c s, l = c :: s /\
  (PN_CHARS_U c \/ digit c) /\ Forall (dot_or PN_CHARS) s.

(** * Numbers and language tags *)

Definition digits0 (w : str) : Prop := Forall digit w.
Definition digits1 (w : str) : Prop := w <> [] /\ Forall digit w.
Definition signs (w : str) : Prop := w = [] \/ w = [43] \/ w = [45].
Definition EXPONENT (w : str) : Prop := exists e s d, w = [e] ++ s ++ d /\ (e = 101 \/ e = 69) /\ signs s /\ digits1 d.
Definition INTEGER (w : str) : Prop := exists s d, w = s ++ d /\ signs s /\ digits1 d.
Definition DECIMAL (w : str) : Prop := exists s d f, w = s ++ d ++ [46] ++ f /\ signs s /\ digits0 d /\ digits1 f.
Definition DOUBLE (w : str) : Prop := exists s m e, w = s ++ m ++ e /\ signs s /\ EXPONENT e /\
  ((exists d f, m = d ++ [46] ++ f /\ digits1 d /\ digits0 f) \/ digits1 m \/ (exists d, m = [46] ++ d /\ digits1 d)).
Definition NUMBER : lang (str * numeric) := fun w x => fst x = w /\
  match snd x with Integer => INTEGER w | Decimal => DECIMAL w | Double => DOUBLE w end.

Definition alnum (c : char) : Prop := letter c \/ digit c.
Definition SUBTAG : lang str := fun w v => v = w /\ exists t, w = 45 :: t /\ t <> [] /\ Forall alnum t.
Definition LANGTAG : lang str := fun w l => w = 64 :: l /\ exists a b vs, l = a ++ b /\ a <> [] /\ Forall letter a /\ star SUBTAG b vs.

(** * Regular expressions and code *)

(** The escape of a slash stands for the slash; the other escapes are escapes of
    the regular expression; [u] are the characters that may be given by number. *)
Definition regexp_piece (u : char -> Prop) : lang str :=
  either (fun w v => exists c, w = [c] /\ v = [c] /\ ~ In c [47; 92; 10; 13])
 (either (fun w v => exists c, w = [92; c] /\ v = (if c =? 47 then [c] else [92; c]) /\
            In c [110; 114; 116; 92; 124; 46; 63; 42; 43; 40; 41; 123; 125; 36; 45; 91; 93; 94; 47])
         (fun w v => exists c, v = [c] /\ UCHAR w c /\ u c)).
Definition regexps (u : char -> Prop) : lang (str * option str) := fun w x => exists m f vs,
  w = [47] ++ m ++ [47] ++ f /\ star (regexp_piece u) m vs /\ vs <> [] /\ Forall (fun c => In c [115; 109; 105; 120]) f /\
  x = (concat vs, match f with [] => None | _ => Some f end).
Definition REGEXP : lang (str * option str) := regexps (fun _ => True).
(** A text with an escape by number of a backslash. *)
Definition backslash (i : str) : Prop := exists a w b, i = a ++ w ++ b /\ code_point w 92.

Definition CODE_CHAR : lang char := either (one (fun c => c <> 37 /\ c <> 92))
  (either (fun w v => w = [92; v] /\ (v = 37 \/ v = 92)) UCHAR).
Definition CODE : lang str := between [123] (star CODE_CHAR) [37; 125].

(** * White space and comments *)

Definition eol (c : char) : Prop := c = 10 \/ c = 13.
Inductive skip : str -> str -> Prop :=
| skip_done i : skip i i
| skip_space c i r : In c [32; 9; 13; 10] -> skip i r -> skip (c :: i) r
| skip_line w i r : Forall (fun c => ~ eol c) w -> (i = [] \/ exists c j, i = c :: j /\ eol c) ->
    skip i r -> skip (35 :: w ++ i) r
| skip_block w i r : (forall a b, w ++ [42] <> a ++ [42; 47] ++ b) -> skip i r -> skip ([47; 42] ++ w ++ [42; 47] ++ i) r.
(** All of it is passed over. *)
Definition skipped (i r : str) : Prop := skip i r /\ forall r', skip r r' -> r' = r.

(** * Names and literals *)

(** From the languages of prefixes and of local names. *)
Definition prefixed (Ns Lo : lang str) : lang iri_ :=
  either (follow Ns Lo Prefixed) (fun w x => exists p, x = Prefixed p [] /\ Ns w p).
Definition iris (Ns Lo : lang str) : lang iri_ :=
  either (fun w x => exists s, x = Iri s /\ IRIREF w s) (prefixed Ns Lo).
(** From the languages of strings and of IRIs. *)
Definition literals (St : lang str) (I : lang iri_) : lang lit :=
  either (fun w x => exists s, x = Plain s /\ St w s)
 (either (follow St LANGTAG Tagged) (follow St (between [94; 94] I []) Typed)).

(** * Where the program differs *)

(** Prefixes without two dots in a row. *)
Definition no_dots (s : str) : Prop := forall a b, s <> a ++ [46; 46] ++ b.
Definition single_dots : lang str := fun w p => PNAME_NS w p /\ no_dots p.
(** The backslash of an escape kept as a part of the name. *)
Definition keep (c : char) : str := [92; c].
Definition no_escape (w : str) : Prop := ~ In 92 w.
(** A text with a character that is longer than a byte. *)
Definition foreign (i : str) : Prop := exists c, In c i /\ 128 <= c.
Definition trouble (i : str) : Prop := no_character i \/ foreign i.

(** * What may be written as it is *)

Definition stops (P : char -> Prop) (r : str) : Prop := forall c s, r = c :: s -> ~ P c.
Definition kept_piece : lang str := itself (fun w => exists c,
  w = [c] /\ ~ In c [47; 92; 10; 13] \/
  w = [92; c] /\ In c [110; 114; 116; 92; 124; 46; 63; 42; 43; 40; 41; 123; 125; 36; 45; 91; 93; 94]).
Definition printable_pattern (s : str) : Prop := s <> [] /\ exists vs, star kept_piece s vs.
Definition printable_flags (f : option str) : Prop :=
  match f with None => True | Some f => f <> [] /\ Forall (fun c => In c [115; 109; 105; 120]) f end.
