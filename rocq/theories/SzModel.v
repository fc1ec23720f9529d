(* Sizes of memory as they are given to containers of QLever.

   Source: rudof_rdf/src/rdf_impl/qlever/index_builder.rs:533-573 (parse_size_to_bytes) and 474-500
   (host_config_with_limits).

   Simplifications.  Numbers are exact, not of 64 bits with a floating point; exponents, inf and nan are
   left out, as is minus zero; only ASCII white space is trimmed. *)
From Coq Require Import List String Ascii Bool Arith NArith.
Import ListNotations.
Open Scope list_scope.

Definition text := list ascii.
Definition chars (s : string) : text := list_ascii_of_string s.

(* str::trim *)
Definition white (c : ascii) : bool := match nat_of_ascii c with 9 | 10 | 11 | 12 | 13 | 32 => true | _ => false end.
Fixpoint trim_start (s : text) : text := match s with c :: r => if white c then trim_start r else s | [] => [] end.
Definition trim (s : text) : text := rev (trim_start (rev (trim_start s))).

(* str::strip_suffix *)
Fixpoint strip_prefix (p s : text) : option text :=
  match p, s with
  | [], _ => Some s
  | a :: p, b :: s => if Ascii.eqb a b then strip_prefix p s else None
  | _, [] => None
  end.
Definition strip_suffix (p s : text) : option text := option_map (@rev ascii) (strip_prefix (rev p) (rev s)).

(* the units in the order in which they are tried, 539-566 *)
Definition units : list (text * N) :=
  [(chars "GiB", 1024 ^ 3); (chars "Gi", 1024 ^ 3); (chars "MiB", 1024 ^ 2); (chars "Mi", 1024 ^ 2);
   (chars "KiB", 1024); (chars "Ki", 1024); (chars "TiB", 1024 ^ 4); (chars "Ti", 1024 ^ 4);
   (chars "GB", 1000000000); (chars "MB", 1000000); (chars "KB", 1000); (chars "TB", 1000000000000);
   (chars "G", 1024 ^ 3); (chars "g", 1024 ^ 3); (chars "M", 1024 ^ 2); (chars "m", 1024 ^ 2);
   (chars "K", 1024); (chars "k", 1024); (chars "T", 1024 ^ 4); (chars "t", 1024 ^ 4)]%N.
Fixpoint split_unit (us : list (text * N)) (s : text) : text * N :=
  match us with
  | [] => (s, 1%N)
  | (u, m) :: us => match strip_suffix u s with Some r => (r, m) | None => split_unit us s end
  end.

(* f64::from_str: the digits as a number, and how many of them are behind the point *)
Definition digit (c : ascii) : option N :=
  let n := nat_of_ascii c in if (48 <=? n) && (n <=? 57) then Some (N.of_nat (n - 48)) else None.
Fixpoint read (s : text) (n : N) (k : option nat) (seen : bool) : option (N * nat) :=
  match s with
  | [] => if seen then Some (n, match k with Some k => k | None => 0 end) else None
  | c :: s =>
      if Ascii.eqb c "." then match k with None => read s n (Some 0) seen | Some _ => None end
      else match digit c with
           | Some d => read s (n * 10 + d)%N (option_map S k) true
           | None => None
           end
  end.
Definition number (s : text) : option (N * nat) :=
  match s with
  | [] => None
  | c :: r => if Ascii.eqb c "+" then read r 0 None false else read s 0 None false
  end.

Definition parse_size (s : text) : option N :=
  let s := trim s in
  match s with
  | [] => None
  | _ =>
      let (r, m) := split_unit units s in
      match number (trim r) with
      | Some (n, k) => let b := (n * m / 10 ^ N.of_nat k)%N in if (b <? 2 ^ 63)%N then Some b else None
      | None => None
      end
  end.

(* host_config_with_limits: memory and swap, none if not given; an error if one cannot be read *)
Definition limit (o : option text) : option (option N) :=
  match o with
  | Some s => option_map Some (parse_size s)
  | None => Some None
  end.
Definition limits (memory swap : option text) : option (option N * option N) :=
  match limit memory, limit swap with
  | Some m, Some s => Some (m, s)
  | _, _ => None
  end.
