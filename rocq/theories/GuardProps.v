(* The guards of the HTTP server: properties. *)
From Coq Require Import List Ascii String Bool NArith Lia Arith.
Import ListNotations.
From Verif Require Import GuardModel GuardSpec GuardLemmas.
Open Scope list_scope.

(* Serialised origins are allowed if and only if their host may send requests; none of them makes the server panic.
   The full statement: a text is allowed if and only if it is such an origin, and no text makes the server panic. *)
Theorem C94_origin_partial {L : net} c s h : origin_host s h -> exists b, is_allowed_origin c s = Some b /\ (b = true <-> may_send (networks c) h).
Proof. intro O. apply origin_allowed, origin_extract, O. Qed.
Print Assumptions C94_origin_partial.

(* Requests: they pass if and only if the origin may send, or there is none, and the version is supported, or there is none; a wrong
   origin is answered with 403 whatever the version is, and a wrong version with 400. *)
Theorem C94_requests_partial {L : net} c hs : (forall v, first (t "origin") hs v -> exists h, origin_host v h) ->
  let fine := absent (t "origin") hs /\ allow_missing c = true \/ exists v h, first (t "origin") hs v /\ printable v /\ origin_host v h /\ may_send (networks c) h in
  let version := absent (t "mcp-protocol-version") hs \/ exists v, first (t "mcp-protocol-version") hs v /\ In v [t "2025-11-25"; t "2025-06-18"; t "2025-03-26"] in
  (guarded c hs = Passed <-> fine /\ version) /\ (guarded c hs = Forbidden <-> ~ fine) /\ (guarded c hs = BadRequest <-> fine /\ ~ version) /\ guarded c hs <> Panicked.
Proof.
  intros W fine version. change fine with (origin_fine c hs). change version with (version_fine hs). clear fine version. unfold guarded.
  destruct (origin_guard_is c hs (protocol_guard hs Passed) W) as [[-> O]|[-> O]]; [destruct (protocol_guard_is hs Passed) as [[-> V]|[-> V]]|];
    repeat split; intros; try discriminate; try tauto.
Qed.
Print Assumptions C94_requests_partial.

(* By default only origins on this machine are allowed. *)
Theorem C94_localhost_partial {L : net} s h : origin_host s h -> (is_allowed_origin localhost_only s = Some true <->
  (exists a, parse_ip h = Some (V4 a) /\ (a / 2 ^ 24 = 127)%N) \/ parse_ip h = Some (V6 1) \/ parse_ip h = None /\ h = t "localhost").
Proof.
  intro O. destruct (C94_origin_partial localhost_only s h O) as (b & -> & B). transitivity (may_send (networks localhost_only) h); [rewrite <- B; split; congruence|]. unfold may_send. split.
  - intros [(i & E & G)|(E & -> & _)]; [|auto]. apply local_granted in G. destruct G as [(a & -> & H)| ->]; eauto.
  - intros [(a & E & H)|[E|[E ->]]].
    + left. exists (V4 a). split; [exact E|]. apply local_granted. eauto.
    + left. exists (V6 1). split; [exact E|]. apply local_granted. auto.
    + right. split; [exact E|]. split; [reflexivity|]. exists (V6 1). split; [auto|]. apply local_granted. auto.
Qed.
Print Assumptions C94_localhost_partial.

(* Whatever is allowed, a part of it may send requests. *)
Theorem C94_part {L : net} c s : is_allowed_origin c s = Some true -> exists x h y, s = x ++ h ++ y /\ may_send (networks c) h.
Proof.
  intro A. destruct (extract_host s) as [h|] eqn:E; [|unfold is_allowed_origin in A; rewrite E in A; discriminate]. destruct (origin_allowed c s h E) as (b & Eb & B).
  assert (b = true) by congruence. subst b. rewrite extract_cut in E. apply cut_part in E. destruct E as (x & y & E). destruct (rest_part s) as (z & Ez). exists (z ++ x), h, y.
  split; [rewrite Ez, E, app_assoc; reflexivity|]. apply B, eq_refl.
Qed.
Print Assumptions C94_part.

(* A text makes the server panic if and only if, without the scheme, its first bracket closes and another one opens later. *)
Theorem C94_panics {L : net} c s : is_allowed_origin c s = None <->
  exists r a b, (s = t "https://" ++ r \/ s = t "http://" ++ r \/ s = r /\ (forall x, s <> t "https://" ++ x /\ s <> t "http://" ++ x)) /\
    r = a ++ "]"%char :: b /\ ~ In "["%char a /\ ~ In "]"%char a /\ In "["%char b.
Proof.
  assert (N : is_allowed_origin c s = None <-> cut (rest_of s) = None).
  { unfold is_allowed_origin. rewrite extract_cut. destruct (cut (rest_of s)); split; intro; congruence. }
  rewrite N. clear N.
  assert (R : forall r, (s = t "https://" ++ r \/ s = t "http://" ++ r \/ s = r /\ (forall x, s <> t "https://" ++ x /\ s <> t "http://" ++ x)) <-> rest_of s = r).
  { intro r. split.
    - intros [-> | [-> | [-> H]]]; [reflexivity|reflexivity|]. unfold rest_of. destruct (strip_prefix (t "https://") r) as [x|] eqn:E; [apply strip_iff in E; destruct (proj1 (H x) E)|].
      destruct (strip_prefix (t "http://") r) as [x|] eqn:E'; [apply strip_iff in E'; destruct (proj2 (H x) E')|reflexivity].
    - intros <-. unfold rest_of. destruct (strip_prefix (t "https://") s) as [x|] eqn:E; [apply strip_iff in E; auto|]. destruct (strip_prefix (t "http://") s) as [x|] eqn:E'; [apply strip_iff in E'; auto|].
      right. right. split; [reflexivity|]. intro x. split; intro H; apply strip_iff in H; congruence. }
  assert (C : forall r, cut r = None <-> exists a b, r = a ++ "]"%char :: b /\ ~ In "["%char a /\ ~ In "]"%char a /\ In "["%char b).
  { intro r. unfold cut. destruct (find "["%char r) as [i|] eqn:Ei, (find "]"%char r) as [j|] eqn:Ej.
    - apply find_some in Ei, Ej. destruct Ei as (a & b & Er & Na & ->), Ej as (a' & b' & Er' & Na' & ->). unfold slice. destruct (Nat.leb_spec (List.length a + 1) (List.length a')) as [Le|Le].
      + split; [discriminate|]. intros (x & y & E & Nx & Nx' & _). exfalso.
        assert (X : List.length x = List.length a'). { rewrite Er' in E. pose proof (find_app _ a' b' Na') as F1. pose proof (find_app _ x y Nx') as F2. rewrite E in F1. congruence. }
        pose proof (find_app _ a b Na) as F. rewrite <- Er, E in F. clear -F X Le Nx. assert (H : forall n, find "["%char (x ++ "]"%char :: y) = Some n -> List.length x < n).
        { clear -Nx. induction x as [|c x IH]; cbn; intros n H.
          - destruct (find "["%char y); [injection H as <-; lia|discriminate].
          - destruct (Ascii.eqb_spec c "[") as [->|]; [destruct Nx; left; reflexivity|]. destruct (find "["%char (x ++ "]"%char :: y)) as [m|] eqn:E; [|discriminate]. injection H as <-.
            assert (List.length x < m) by (apply IH; [intro I; apply Nx; right; exact I|reflexivity]). lia. }
        apply H in F. lia.
      + split; [|reflexivity]. intros _. exists a', b'. split; [exact Er'|].
        assert (La : List.length a' <= List.length a) by lia.
        assert (Pre : exists m, a = a' ++ m).
        { rewrite Er in Er'. clear -Er' La. revert a Er' La. induction a' as [|x a' IH]; intros a E Le; [exists a; reflexivity|]. destruct a as [|y a]; [cbn in Le; lia|]. cbn in E. injection E as -> E. destruct (IH a E) as (m & ->); [cbn in Le; lia|]. exists m. reflexivity. }
        destruct Pre as (m & ->). split; [intro I; apply Na, in_or_app; auto|]. split; [exact Na'|]. rewrite Er in Er'. rewrite <- app_assoc in Er'. apply app_inv_head in Er'.
        destruct m as [|x m]; [discriminate Er'|]. cbn in Er'. injection Er' as _ <-. apply in_or_app. right. left. reflexivity.
    - split; [intro H; exfalso; revert H; unfold slice; cbn [Nat.leb]; discriminate|]. intros (a & b & -> & _). apply find_none in Ej. destruct Ej. apply in_or_app. right. left. reflexivity.
    - split; [intro H; exfalso; revert H; unfold slice; cbn [Nat.leb]; discriminate|]. intros (a & b & -> & _ & _ & I). apply find_none in Ei. destruct Ei. apply in_or_app. right. right. exact I.
    - split; [intro H; exfalso; revert H; unfold slice; cbn [Nat.leb]; discriminate|]. intros (a & b & -> & _). apply find_none in Ej. destruct Ej. apply in_or_app. right. left. reflexivity. }
  rewrite C. split.
  - intros (a & b & H). exists (rest_of s), a, b. split; [apply R; reflexivity|exact H].
  - intros (r & a & b & Hr & H). apply R in Hr. subst r. exists a, b. exact H.
Qed.
Print Assumptions C94_panics.

(* A server that starts has the networks that it was given, all of them, or those of this machine if none are given. *)
Theorem C94_configured {L : net} allowed c : configure allowed = Some c <->
  (allowed = None \/ allowed = Some []) /\ c = localhost_only \/
  exists x l, allowed = Some (x :: l) /\ List.map parse_network (x :: l) = List.map Some (networks c) /\ allow_missing c = true.
Proof.
  assert (P : forall l ns, parse_all l = Some ns <-> List.map parse_network l = List.map Some ns).
  { induction l as [|x l IH]; intros ns; cbn [parse_all List.map].
    - split; [intro H; injection H as <-; reflexivity|]. destruct ns; [reflexivity|discriminate].
    - destruct (parse_network x) as [n|]; [|split; [discriminate|destruct ns; discriminate]]. destruct (parse_all l) as [ms|] eqn:E; cbn [option_map].
      + split; [intro H; injection H as <-; cbn; f_equal; apply IH; reflexivity|]. destruct ns as [|n' ns]; [discriminate|]. cbn. intro H. injection H as -> H. apply IH in H. congruence.
      + split; [discriminate|]. destruct ns as [|n' ns]; [discriminate|]. cbn. intro H. injection H as -> H. apply IH in H. discriminate. }
  unfold configure. destruct allowed as [[|x l]|].
  - split; [intro H; injection H as <-; auto|]. intros [[_ ->]|(y & l & H & _)]; [reflexivity|discriminate].
  - unfold new_config. split.
    + destruct (parse_all (x :: l)) as [[|n ns]|] eqn:E; try discriminate. intro H. injection H as <-. right. exists x, l. split; [reflexivity|]. split; [apply P, E|reflexivity].
    + intros [[[H|H] _]|(y & l' & H & M & A)]; try discriminate. injection H as <- <-. destruct c as [[|n ns] al]; cbn [networks allow_missing] in *; [discriminate M|]. apply P in M. rewrite M, A. reflexivity.
  - split; [intro H; injection H as <-; auto|]. intros [[_ ->]|(y & l & H & _)]; [reflexivity|discriminate].
Qed.
Print Assumptions C94_configured.

(* The address of the server is the host of its own URI. *)
Theorem C94_own_uri a port route : a <> t "0.0.0.0" -> a <> t "::" ->
  (plain_host a /\ (~ has "[" (port ++ route) \/ ~ has "]" (port ++ route))) \/ has ":" a /\ ~ has "]" a ->
  extract_host (format_canonical_uri a port route) = Some a.
Proof.
  intros N1 N2 H. unfold format_canonical_uri. destruct (text_eqb a (t "0.0.0.0")) eqn:E1; [apply text_eqb_eq in E1; contradiction|]. destruct (text_eqb a (t "::")) eqn:E2; [apply text_eqb_eq in E2; contradiction|].
  rewrite extract_cut. destruct H as [[(A & B & C & D) R]|[C B]].
  - rewrite (proj2 (find_none _ _) C). rewrite rest_scheme by auto. apply cut_plain; auto. right. exists (port ++ route). split; [reflexivity|]. unfold has in *. destruct R as [R|R]; [left|right]; intro I; apply in_app_or in I; tauto.
  - destruct (find ":"%char a) eqn:E; [|apply find_none in E; contradiction]. change (t "http://[" ++ a ++ t "]:" ++ port ++ route) with (t "http://" ++ ("["%char :: a ++ "]"%char :: t ":" ++ port ++ route)). rewrite rest_scheme by auto. apply cut_bracketed, B.
Qed.
Print Assumptions C94_own_uri.

(* ------------------------------------------------------------------ *)
(* Examples                                                             *)

#[local] Instance net0 : net := {|
  parse_ip := fun s => if text_eqb s (t "::1") then Some (V6 1) else if text_eqb s (t "127.0.0.5") then Some (V4 2130706437) else if text_eqb s (t "192.168.1.7") then Some (V4 3232235783) else None;
  parse_network := fun s => if text_eqb s (t "192.168.1.0/24") then Some {| n_addr := V4 3232235776; n_prefix := 24 |} else None |}.
Lemma digits p : forallb (fun a => existsb (Ascii.eqb a) (t "0123456789")) p = true -> forall a, In a p -> In a (t "0123456789").
Proof. intros H a I. rewrite forallb_forall in H. specialize (H a I). apply existsb_exists in H. destruct H as (b & J & E). apply Ascii.eqb_eq in E. subst b. exact J. Qed.
Lemma free c l : existsb (Ascii.eqb c) l = false -> ~ In c l.
Proof. intros H I. assert (existsb (Ascii.eqb c) l = true) by (apply existsb_exists; exists c; split; [exact I|apply Ascii.eqb_refl]). congruence. Qed.
Example C94_met : origin_host (t "https://localhost:8080") (t "localhost") /\ origin_host (t "http://[::1]") (t "::1") /\ origin_host (t "http://192.168.1.7:80") (t "192.168.1.7") /\
  is_allowed_origin localhost_only (t "https://localhost:8080") = Some true /\ is_allowed_origin localhost_only (t "http://[::1]") = Some true /\
  is_allowed_origin localhost_only (t "http://127.0.0.5") = Some true /\ is_allowed_origin localhost_only (t "http://192.168.1.7:80") = Some false /\
  exists c, configure (Some [t "192.168.1.0/24"]) = Some c /\ is_allowed_origin c (t "http://192.168.1.7:80") = Some true /\ is_allowed_origin c (t "http://localhost") = Some false.
Proof.
  split; [apply (Oh_plain (t "https://") (t "localhost") (t ":8080")); [auto|repeat split; apply free; reflexivity|apply (Port_some (t "8080")), digits; reflexivity]|].
  split; [apply (Oh_bracketed (t "http://") (t "::1") []); [auto|repeat split; apply free; reflexivity|constructor]|].
  split; [apply (Oh_plain (t "http://") (t "192.168.1.7") (t ":80")); [auto|repeat split; apply free; reflexivity|apply (Port_some (t "80")), digits; reflexivity]|].
  do 4 (split; [vm_compute; reflexivity|]). eexists. split; [reflexivity|]. split; vm_compute; reflexivity.
Qed.
Example C94_requests_met : guarded localhost_only [] = Passed /\ guarded localhost_only [(t "origin", t "http://localhost"); (t "origin", t "http://evil.com"); (t "mcp-protocol-version", t "2025-06-18")] = Passed /\
  guarded localhost_only [(t "mcp-protocol-version", t "1.0"); (t "origin", t "http://evil.com")] = Forbidden /\ guarded localhost_only [(t "mcp-protocol-version", t "1.0")] = BadRequest.
Proof. repeat split. Qed.
Example C94_own_uri_met : format_canonical_uri (t "fe80::1") (t "80") (t "/mcp") = t "http://[fe80::1]:80/mcp" /\ extract_host (t "http://[fe80::1]:80/mcp") = Some (t "fe80::1") /\
  format_bind_address (t "::1") (t "80") = t "[::1]:80" /\ extract_host (format_canonical_uri (t "10.0.0.1") (t "80") (t "/[x]")) = Some (t "x").
Proof. repeat split. Qed.

(* ------------------------------------------------------------------ *)
(* Where the guard fails                                                *)

(* The host is not that of the URL: brackets in a path, and a password in front of the host. *)
Theorem C94_evil_refuted : exists s s' : string, (forall h, ~ origin_host (t s) h) /\ (forall h, ~ origin_host (t s') h) /\
  forall L : net, parse_ip (t "::1") = Some (V6 1) -> parse_ip (t "localhost") = None ->
    @is_allowed_origin L localhost_only (t s) = Some true /\ @is_allowed_origin L localhost_only (t s') = Some true.
Proof.
  exists "http://evil.com/[::1]"%string, "http://localhost:80@evil.com"%string.
  assert (X : forall s h, origin_host s h -> extract_host s = Some h) by apply origin_extract.
  split; [|split].
  - intros h O. pose proof (X _ _ O) as E. vm_compute in E. injection E as <-.
    inversion O as [scheme k p Sc (A & B & C & D) P Es|scheme k p Sc (A & B) P Es]; subst; destruct Sc as [-> | ->]; cbn in Es; repeat (injection Es as Es); discriminate Es.
  - intros h O. pose proof (X _ _ O) as E. vm_compute in E. injection E as <-.
    inversion O as [scheme k p Sc (A & B & C & D) P Es|scheme k p Sc (A & B) P Es]; subst; destruct Sc as [-> | ->]; cbn in Es; try discriminate Es.
    injection Es as Es. destruct P as [|q D']; cbn in Es; try discriminate Es. injection Es as ->. specialize (D' "@"%char). cbn in D'. destruct D' as [H|D']; [right; right; left; reflexivity|discriminate H|].
    repeat (destruct D' as [D'|D']; [discriminate D'|]). exact D'.
  - intros L E1 E2. unfold is_allowed_origin. change (extract_host (t "http://evil.com/[::1]")) with (Some (t "::1")). change (extract_host (t "http://localhost:80@evil.com")) with (Some (t "localhost")). cbv iota. rewrite E1, E2. split; reflexivity.
Qed.
Print Assumptions C94_evil_refuted.

(* One header makes the handler panic, whatever the configuration is. *)
Theorem C94_panic_refuted : exists v : string, printable (t v) /\ forall (L : net) c hs, guarded c ((t "origin", t v) :: hs) = Panicked.
Proof. exists "]["%string. split; [apply visible_iff; reflexivity|]. intros L c hs. reflexivity. Qed.
Print Assumptions C94_panic_refuted.

(* The same machine by another spelling of its name is refused. *)
Theorem C94_case_refuted : exists s s' h h' : string, origin_host (t s) (t h) /\ origin_host (t s') (t h') /\ h = "localhost"%string /\ h' = "LOCALHOST"%string /\
  forall L : net, parse_ip (t h) = None -> parse_ip (t h') = None -> @is_allowed_origin L localhost_only (t s) = Some true /\ @is_allowed_origin L localhost_only (t s') = Some false.
Proof.
  exists "http://localhost"%string, "http://LOCALHOST"%string, "localhost"%string, "LOCALHOST"%string.
  split; [apply (Oh_plain (t "http://") (t "localhost") []); [auto|repeat split; apply free; reflexivity|constructor]|].
  split; [apply (Oh_plain (t "http://") (t "LOCALHOST") []); [auto|repeat split; apply free; reflexivity|constructor]|]. split; [reflexivity|]. split; [reflexivity|].
  intros L E1 E2. unfold is_allowed_origin. change (extract_host (t "http://localhost")) with (Some (t "localhost")). change (extract_host (t "http://LOCALHOST")) with (Some (t "LOCALHOST")). cbv iota. rewrite E1, E2. split; reflexivity.
Qed.
Print Assumptions C94_case_refuted.
