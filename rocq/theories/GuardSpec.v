(* What the guards of the HTTP server should let through.  Of the model only the types, the library and the reading of texts are used. *)
From Coq Require Import List Ascii String Bool NArith.
Import ListNotations.
From Verif Require Import GuardModel.

(* A serialised origin: a scheme, a host and perhaps a port (RFC 6454, section 6.2).  Addresses of version 6 are in brackets. *)
Definition has (c : ascii) (l : text) : Prop := In c l.
Definition plain_host (h : text) : Prop := ~ has "[" h /\ ~ has "]" h /\ ~ has ":" h /\ ~ has "/" h.
Definition bracketed_host (h : text) : Prop := ~ has "[" h /\ ~ has "]" h.
Inductive port_part : text -> Prop :=
| Port_none : port_part []
| Port_some p : (forall a, In a p -> In a (t "0123456789")) -> port_part (t ":" ++ p)%list.
Inductive origin_host : text -> text -> Prop :=
| Oh_plain scheme h p : scheme = t "http://" \/ scheme = t "https://" -> plain_host h -> port_part p -> origin_host (scheme ++ h ++ p)%list h
| Oh_bracketed scheme h p : scheme = t "http://" \/ scheme = t "https://" -> bracketed_host h -> port_part p ->
    origin_host (scheme ++ t "[" ++ h ++ t "]" ++ p)%list h.

(* An address is in a network if the first bits are the same. *)
Definition width (i : ip) : N := match i with V4 _ => 32 | V6 _ => 128 end.
Definition number (i : ip) : N := match i with V4 a => a | V6 a => a end.
Definition same_version (i j : ip) : Prop := width i = width j.
Definition inside (n : network) (i : ip) : Prop :=
  same_version (n_addr n) i /\ forall k : N, (width i - n_prefix n <= k)%N -> N.testbit (number (n_addr n)) k = N.testbit (number i) k.
Definition granted (ns : list network) (i : ip) : Prop := exists n, In n ns /\ inside n i.

Section Grants.
Context {L : net}.
(* A host may send requests: an address that is granted, or this machine by its name. *)
Definition may_send (ns : list network) (h : text) : Prop :=
  (exists i, parse_ip h = Some i /\ granted ns i) \/
  parse_ip h = None /\ h = t "localhost" /\ exists i, (i = V4 2130706433 \/ i = V6 1) /\ granted ns i.
End Grants.

(* The first header with a name. *)
Inductive first (name : text) : list header -> text -> Prop :=
| First_here v hs : first name ((name, v) :: hs) v
| First_later n w v hs : n <> name -> first name hs v -> first name ((n, w) :: hs) v.
Definition printable (v : text) : Prop := forall a, In a v -> (32 <= N_of_ascii a < 127)%N \/ N_of_ascii a = 9%N.
Definition absent (name : text) (hs : list header) : Prop := forall v, ~ In (name, v) hs.
