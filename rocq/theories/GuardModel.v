(* The guards of the HTTP server.

   rudof_mcp/src/server/streamable_http/middleware.rs:23-236, http_server.rs:47-66, 125-174.

   Simplifications.
   - Texts are lists of bytes. All that is searched for and cut at is ASCII, so that indices are those of the code.
   - The reading of addresses and networks (std::net, ipnetwork) is a library; that a network contains an address is written out.
   - A request is the list of its headers, in order, with names in lower case; what comes behind the guards is Passed.
   - A panic of the handler is an answer of its own. *)
From Coq Require Import List Ascii String Bool NArith.
Import ListNotations.

Definition text := list ascii.
Definition t (s : string) : text := list_ascii_of_string s.

Inductive ip : Type := V4 (a : N) | V6 (a : N).
Record network : Type := { n_addr : ip; n_prefix : N }.
Class net : Type := { parse_ip : text -> option ip; parse_network : text -> option network }.

Definition text_eqb (a b : text) : bool := if list_eq_dec ascii_dec a b then true else false.
(* str::find, str::strip_prefix, slices *)
Fixpoint find (c : ascii) (l : text) : option nat :=
  match l with [] => None | a :: l => if Ascii.eqb a c then Some 0 else option_map S (find c l) end.
Fixpoint strip_prefix (p l : text) : option text :=
  match p, l with
  | [], l => Some l
  | a :: p, b :: l => if Ascii.eqb a b then strip_prefix p l else None
  | _ :: _, [] => None
  end.
Definition slice (a b : nat) (l : text) : option text := if Nat.leb a b then Some (firstn (b - a) (skipn a l)) else None.

(* ipnetwork: contains *)
Definition contains (n : network) (i : ip) : bool :=
  match n_addr n, i with
  | V4 a, V4 b => N.eqb (N.shiftr a (32 - n_prefix n)) (N.shiftr b (32 - n_prefix n))
  | V6 a, V6 b => N.eqb (N.shiftr a (128 - n_prefix n)) (N.shiftr b (128 - n_prefix n))
  | _, _ => false
  end.

(* middleware.rs:20-28 *)
Record config : Type := { networks : list network; allow_missing : bool }.

Section Guard.
Context {L : net}.

(* middleware.rs:34-51 *)
Fixpoint parse_all (l : list text) : option (list network) :=
  match l with
  | [] => Some []
  | x :: l => match parse_network x with None => None | Some n => option_map (cons n) (parse_all l) end
  end.
Definition new_config (cidrs : list text) : option config :=
  match parse_all cidrs with
  | None => None
  | Some [] => None
  | Some ns => Some {| networks := ns; allow_missing := true |}
  end.
(* middleware.rs:53-61 *)
Definition localhost_v4 : ip := V4 (127 * 2 ^ 24 + 1).
Definition localhost_v6 : ip := V6 1.
Definition localhost_only : config :=
  {| networks := [{| n_addr := V4 (127 * 2 ^ 24); n_prefix := 8 |}; {| n_addr := V6 1; n_prefix := 128 |}]; allow_missing := true |}.
(* http_server.rs:57-66 *)
Definition configure (allowed : option (list text)) : option config :=
  match allowed with
  | Some ((_ :: _) as l) => new_config l
  | _ => Some localhost_only
  end.

(* middleware.rs:101-123; None is a panic *)
Definition extract_host (origin : text) : option text :=
  let rest := match strip_prefix (t "https://") origin with
              | Some r => r
              | None => match strip_prefix (t "http://") origin with Some r => r | None => origin end
              end in
  match find "["%char rest, find "]"%char rest with
  | Some a, Some b => slice (a + 1) b rest
  | _, _ =>
      let stop := match find ":"%char rest with
                  | Some i => i
                  | None => match find "/"%char rest with Some i => i | None => List.length rest end
                  end in
      slice 0 stop rest
  end.
(* middleware.rs:95-97 *)
Definition is_ip_allowed (c : config) (i : ip) : bool := existsb (fun n => contains n i) (networks c).
(* middleware.rs:71-93 *)
Definition is_allowed_origin (c : config) (origin : text) : option bool :=
  match extract_host origin with
  | None => None
  | Some host =>
      Some match parse_ip host with
           | Some i => is_ip_allowed c i
           | None => if text_eqb host (t "localhost") then is_ip_allowed c localhost_v4 || is_ip_allowed c localhost_v6 else false
           end
  end.

Definition header := (text * text)%type.
Inductive answer : Type := Passed | Forbidden | BadRequest | Panicked.
Fixpoint get (name : text) (hs : list header) : option text :=
  match hs with [] => None | (n, v) :: hs => if text_eqb n name then Some v else get name hs end.
(* HeaderValue::to_str *)
Definition visible (a : ascii) : bool := let n := N_of_ascii a in (N.leb 32 n && N.ltb n 127) || N.eqb n 9.
Definition to_str (v : text) : option text := if forallb visible v then Some v else None.

(* middleware.rs:11-18, 151-185 *)
Definition supported : list text := [t "2025-11-25"; t "2025-06-18"; t "2025-03-26"].
Definition protocol_guard (hs : list header) (next : answer) : answer :=
  match get (t "mcp-protocol-version") hs with
  | Some v => match to_str v with
              | Some s => if existsb (text_eqb s) supported then next else BadRequest
              | None => BadRequest
              end
  | None => next
  end.
(* middleware.rs:200-235 *)
Definition origin_guard (c : config) (hs : list header) (next : answer) : answer :=
  match get (t "origin") hs with
  | Some v => match to_str v with
              | Some s => match is_allowed_origin c s with
                          | Some true => next
                          | Some false => Forbidden
                          | None => Panicked
                          end
              | None => Forbidden
              end
  | None => if allow_missing c then next else Forbidden
  end.
(* middleware.rs:135-141: the layer added last is the outermost *)
Definition guarded (c : config) (hs : list header) : answer := origin_guard c hs (protocol_guard hs Passed).

(* http_server.rs:144-152 *)
Definition format_bind_address (a port : text) : text :=
  match find ":"%char a with Some _ => (t "[" ++ a ++ t "]:" ++ port)%list | None => (a ++ t ":" ++ port)%list end.
(* http_server.rs:160-174 *)
Definition format_canonical_uri (a port route : text) : text :=
  if text_eqb a (t "0.0.0.0") then (t "http://127.0.0.1:" ++ port ++ route)%list
  else if text_eqb a (t "::") then (t "http://[::1]:" ++ port ++ route)%list
  else match find ":"%char a with
       | Some _ => (t "http://[" ++ a ++ t "]:" ++ port ++ route)%list
       | None => (t "http://" ++ a ++ t ":" ++ port ++ route)%list
       end.
End Guard.
