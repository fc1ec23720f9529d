(* C98: the arcs around a node.  C99: reading the printed arcs back. *)
From Coq Require Import List String Ascii Bool NArith Lia.
Import ListNotations.
From Verif Require Import NbModel NbSpec InfoModel InfoSpec InfoLemmas InfoText.
Open Scope list_scope.

(* C98.  The full statement: for every depth and every list of predicates, the trees of a node show exactly the walks from the node and to it that are no
   longer than the depth and use these predicates, each once.  It holds for depths from 1 and for outgoing arcs. *)
Theorem C98_outgoing_partial g preds d s : exists l,
  collect_outgoing g preds (S d) s = Some l /\ each_once l /\
  forall steps, branch l steps <-> walk (allowed preds) g s steps /\ List.length steps <= S d.
Proof.
  rewrite collect_outgoing_is. destruct (collect_right (fun s => pairs (arc_map g s preds))) with (d := d) (s := s) as (l & E & O & B).
  - intros x. apply pairs_once. apply arc_map_right.
  - exists l. split; [exact E|]. split; [exact O|]. intros steps. rewrite B, goes_walk. reflexivity.
Qed.
Print Assumptions C98_outgoing_partial.
(* incoming arcs: of all predicates *)
Theorem C98_incoming_partial g d s : exists l,
  collect_incoming g (S d) s = Some l /\ each_once l /\
  forall steps, branch l steps <-> walk_back g s steps /\ List.length steps <= S d.
Proof.
  rewrite collect_incoming_is. destruct (collect_right (fun s => pairs (incoming_arcs g (TSub s)))) with (d := d) (s := s) as (l & E & O & B).
  - intros x. apply pairs_once. apply incoming_right.
  - exists l. split; [exact E|]. split; [exact O|]. intros steps. rewrite B, goes_back. reflexivity.
Qed.
Print Assumptions C98_incoming_partial.
(* what is printed is the same tree, with the predicates of each node in order *)
Theorem C98_arranged l : same_tree l (arrange_all l) /\ in_order (arrange_all l) /\ (each_once l -> each_once (arrange_all l)) /\
  forall steps, branch (arrange_all l) steps <-> branch l steps.
Proof.
  split; [apply arrange_all_same|]. split; [apply arrange_all_in_order|]. split; [apply same_tree_once, arrange_all_same|].
  intros steps. symmetry. apply same_tree_branch, arrange_all_same.
Qed.
Print Assumptions C98_arranged.
(* a node, in each mode *)
Theorem C98_build_partial g preds outs ins d s : exists i, build g preds outs ins (S d) s = Some i /\ ni_node i = s /\
  (forall steps, branch (ni_out i) steps <-> outs = true /\ walk (allowed preds) g s steps /\ List.length steps <= S d) /\
  (forall steps, branch (ni_in i) steps <-> ins = true /\ walk_back g s steps /\ List.length steps <= S d).
Proof.
  destruct (C98_outgoing_partial g preds d s) as (o & Eo & _ & Bo). destruct (C98_incoming_partial g d s) as (i & Ei & _ & Bi).
  assert (N : forall steps, ~ branch [] steps) by (intros steps B; inversion B as [l p t r I|l p t r st I]; subst; destruct I).
  unfold build. rewrite Eo, Ei.
  destruct outs, ins; eexists; (split; [reflexivity|]); cbn; (split; [reflexivity|]); split; intros steps;
    rewrite ?Bo, ?Bi; try tauto; (split; [intros B; destruct (N _ B)|intros [X _]; discriminate]).
Qed.
Print Assumptions C98_build_partial.
(* At depth 0 (which the command line takes) the depth of the next arcs is below zero: the program stops with an overflow or, without overflow
   checks, goes on to the greatest depth there is. *)
Theorem C98_zero_refuted : exists g s, collect_outgoing g [] 0 s = None /\ collect_incoming g 0 s = None.
Proof.
  exists [{| t_s := SIri "a"; t_p := "p"; t_o := TSub (SIri "a") |}], (SIri "a"). split; reflexivity.
Qed.
Print Assumptions C98_zero_refuted.
(* it does so exactly at nodes with an arc to a node that is not a literal *)
Theorem C98_zero_partial g preds s :
  collect_outgoing g preds 0 s = None <-> exists p o, has g s p (TSub o) /\ allowed preds p.
Proof.
  assert (E : forall p o, In (p, o) (pairs (arc_map g s preds)) <-> has g s p o /\ allowed preds p).
  { intros p o. destruct (arc_map_right g s preds) as [T H]. rewrite (pairs_in _ _ _ T). apply H. }
  assert (X : forall l, each (fun x => match snd x with TSub _ => None | TLit _ => Some (leaf x) end) l = None <-> exists p o, In (p, TSub o) l).
  { induction l as [|[p [o|o]] l IH]; cbn.
    - split; [discriminate|intros (? & ? & [])].
    - split; [eauto|reflexivity].
    - destruct (each _ l); split; try discriminate.
      + intros (q & u & [I|I]); [discriminate|]. destruct IH as [_ IH]. discriminate IH. eauto.
      + intros _. destruct IH as [IH _]. destruct (IH eq_refl) as (q & u & I). eauto.
      + reflexivity. }
  cbn [collect_outgoing]. rewrite X. split; intros (p & o & H); exists p, o; apply E; exact H.
Qed.
Print Assumptions C98_zero_partial.
(* With a list of predicates the tree of incoming arcs still shows the others. *)
Theorem C98_filter_refuted : exists g preds s i p t rest,
  build g preds true true 1 s = Some i /\ In (Info p t rest) (ni_in i) /\ ~ allowed preds p.
Proof.
  exists [{| t_s := SIri "b"; t_p := "q"; t_o := TSub (SIri "a") |}], ["p"%string], (SIri "a"). do 4 eexists.
  split; [reflexivity|]. split; [left; reflexivity|]. intros [X|[X|[]]]; discriminate.
Qed.
Print Assumptions C98_filter_refuted.
Definition g98 : graph :=
  [{| t_s := SIri "a"; t_p := "q"; t_o := TSub (SIri "b") |}; {| t_s := SIri "a"; t_p := "p"; t_o := TLit "1" |};
   {| t_s := SIri "b"; t_p := "p"; t_o := TSub (SIri "a") |}; {| t_s := SIri "b"; t_p := "r"; t_o := TSub (SIri "a") |}].
Example C98_met :
  collect_outgoing g98 [] 2 (SIri "a") =
    Some [Info "q" (TSub (SIri "b")) [Info "p" (TSub (SIri "a")) []; Info "r" (TSub (SIri "a")) []]; Info "p" (TLit "1") []] /\
  collect_outgoing g98 ["p"; "q"]%string 3 (SIri "a") =
    Some [Info "q" (TSub (SIri "b")) [Info "p" (TSub (SIri "a")) [Info "q" (TSub (SIri "b")) []; Info "p" (TLit "1") []]]; Info "p" (TLit "1") []] /\
  collect_incoming g98 2 (SIri "a") =
    Some [Info "p" (TSub (SIri "b")) [Info "q" (TSub (SIri "a")) []]; Info "r" (TSub (SIri "b")) [Info "q" (TSub (SIri "a")) []]] /\
  arrange_all [Info "q" (TSub (SIri "b")) [Info "r" (TSub (SIri "a")) []; Info "p" (TSub (SIri "a")) []]; Info "p" (TLit "1") []] =
    [Info "p" (TLit "1") []; Info "q" (TSub (SIri "b")) [Info "p" (TSub (SIri "a")) []; Info "r" (TSub (SIri "a")) []]].
Proof. repeat split; reflexivity. Qed.

(* C99.  The full statement: whatever the data, reading what is printed about nodes gives their arcs, in the order of the trees, each with its predicate, its
   other node and its depth.  It holds when predicates and nodes are written on one line without the characters of the tree, but for the depth below the
   last arc of a node. *)
Theorem C99_read_partial {L : lib} is :
  (forall i, In i is -> plain_root (ni_node i) /\ plain_tree (ni_out i) /\ plain_tree (ni_in i)) ->
  exists trees,
    Forall2 (fun i t => same_tree (ni_out i) (fst t) /\ in_order (fst t) /\ same_tree (ni_in i) (snd t) /\ in_order (snd t)) is trees /\
    Forall2 reads (flat_map (fun t => all_entries [] (fst t)) trees) (rd_out (read (output is))) /\
    Forall2 reads (flat_map (fun t => all_entries [] (snd t)) trees) (rd_in (read (output is))).
Proof.
  intros H. exists (List.map (fun i => (arrange_all (ni_out i), arrange_all (ni_in i))) is). split.
  - clear H. induction is as [|i is IH]; cbn; constructor; [|exact IH]. cbn. auto using arrange_all_same, arrange_all_in_order.
  - unfold read. set (r0 := {| rd_section := None; rd_out := []; rd_in := [] |}).
    assert (X : forall r, exists os is_,
      Forall2 reads (flat_map (fun t => all_entries [] (fst t)) (List.map (fun i => (arrange_all (ni_out i), arrange_all (ni_in i))) is)) os /\
      Forall2 reads (flat_map (fun t => all_entries [] (snd t)) (List.map (fun i => (arrange_all (ni_out i), arrange_all (ni_in i))) is)) is_ /\
      rd_out (fold_left read_line (split_lines (output is) []) r) = rd_out r ++ os /\
      rd_in (fold_left read_line (split_lines (output is) []) r) = rd_in r ++ is_).
    { induction is as [|i is IH]; intros r.
      - exists [], []. cbn. rewrite !app_nil_r. auto.
      - destruct (H i (or_introl eq_refl)) as (R & Po & Pi).
        cbn [output flat_map List.map]. change (flat_map output_of is) with (output is). unfold output_of. rewrite !section_is, <- !app_assoc.
        rewrite split_ended by (now apply section_lines_right). rewrite split_ended by (now apply section_lines_right).
        rewrite !fold_left_app.
        destruct (read_section Out (ni_node i) (ni_out i) r R Po) as (r1 & a1 & E1 & F1 & O1 & I1). rewrite E1.
        destruct (read_section In_ (ni_node i) (ni_in i) r1 R Pi) as (r2 & a2 & E2 & F2 & O2 & I2). rewrite E2.
        destruct (IH (fun j J => H j (or_intror J)) r2) as (os & is_ & Fo & Fi & Eo & Ei).
        exists (a1 ++ os), (a2 ++ is_). cbn [fst snd]. split; [now apply Forall2_app|]. split; [now apply Forall2_app|].
        rewrite Eo, Ei, O2, I2, O1, I1, !app_nil_r, <- !app_assoc. auto. }
    destruct (X r0) as (os & is_ & Fo & Fi & -> & ->). cbn. auto.
Qed.
Print Assumptions C99_read_partial.
#[local] Instance simple : lib := {
  show_pred p := chars p;
  show_term t := match t with TSub (SIri i) => chars i | TSub (SBlank b) => chars ("_:" ++ b)%string | TLit l => 34%N :: chars l ++ [34%N] end }.
Definition i99 : node_info :=
  {| ni_node := SIri "a"; ni_out := [Info "q" (TSub (SIri "b")) [Info "p" (TSub (SIri "a")) []]; Info "p" (TSub (SIri "c")) [Info "p" (TLit "x y") []]];
     ni_in := [Info "r" (TSub (SIri "d")) []] |}.
Example C99_met :
  (plain_root (ni_node i99) /\ plain_tree (ni_out i99) /\ plain_tree (ni_in i99)) /\
  read (output [i99]) = {| rd_section := Some In_;
    rd_out := [{| r_pred := chars "p"; r_target := chars "c"; r_depth := 0 |}; {| r_pred := chars "p"; r_target := [34; 120; 32; 121; 34]%N; r_depth := 1 |};
               {| r_pred := chars "q"; r_target := chars "b"; r_depth := 0 |}; {| r_pred := chars "p"; r_target := chars "a"; r_depth := 0 |}];
    rd_in := [{| r_pred := chars "r"; r_target := chars "d"; r_depth := 0 |}] |} /\
  output_of {| ni_node := SIri "a"; ni_out := [Info "p" (TSub (SIri "b")) []]; ni_in := [Info "q" (TSub (SIri "c")) []] |} =
    chars "Outgoing arcs" ++ [10; 97; 10; 9492; 9472; 9472; 9472; 32; 112; 32; 9472; 9658; 32; 98; 10; 10]%N ++
    chars "Incoming arcs" ++ [10; 97; 10; 9650; 10; 9492; 9472; 9472; 9472; 32; 113; 32; 9472; 9472; 32; 99; 10; 10]%N.
Proof.
  assert (W : forall c : N, (c =? 34)%N || ((97 <=? c) && (c <=? 122))%N = true -> ~ In c spaces).
  { intros c E I. apply white_true in I. revert E I. unfold white. rewrite !orb_true_iff, !andb_true_iff, !N.leb_le, !N.eqb_eq. lia. }
  assert (O : forall c : N, (c =? 34)%N || ((97 <=? c) && (c <=? 122))%N = true -> one_line [c]).
  { intros c E. split.
    - intros [-> |[]]. discriminate E.
    - exists c, [], c. auto. }
  assert (P : forall p, (p = "p" \/ p = "q" \/ p = "r")%string -> plain p).
  { intros p [-> |[-> | ->]]; (split; [apply O; reflexivity|]); intros c [<-|[]] D; unfold drawn in D; intuition discriminate. }
  split; [split; [split; [split|split]|split]|split; vm_compute; reflexivity].
  - intros [X|[]]; discriminate.
  - exists 97%N, [], 97%N. repeat split; auto; apply W; reflexivity.
  - intros [X|[]]; discriminate.
  - intros c [<-|[]] D. unfold drawn in D. intuition discriminate.
  - constructor. intros p t rest [[= <- <- <-]|[[= <- <- <-]|[]]]; (split; [apply P; auto|]); (split; [apply O; reflexivity|]); constructor;
      intros p t rest [[= <- <- <-]|[]]; (split; [apply P; auto|]); (split; [|constructor; intros ? ? ? []]).
    + apply O. reflexivity.
    + split; [intros X; cbn in X; intuition discriminate|]. exists 34%N, [120; 32; 121]%N, 34%N. repeat split; [apply W; reflexivity|apply W; reflexivity|auto].
  - constructor. intros p t rest [[= <- <- <-]|[]]. split; [apply P; auto|]. split; [apply O; reflexivity|]. constructor. intros ? ? ? [].
Qed.
(* Below the last arc of a node the depth is not the depth of the tree: here 0 below an arc. *)
Theorem C99_depth_refuted : exists i p t above a,
  (plain_root (ni_node i) /\ plain_tree (ni_out i) /\ plain_tree (ni_in i)) /\
  In (p, t, above) (all_entries [] (ni_out i)) /\ In a (rd_out (read (output [i]))) /\
  r_pred a = show_pred p /\ r_target a = show_term t /\ List.length above = 1 /\ List.length (all_entries [] (ni_out i)) = 2 /\
  List.map r_depth (rd_out (read (output [i]))) = [0; 0].
Proof.
  exists {| ni_node := SIri "a"; ni_out := [Info "q" (TSub (SIri "b")) [Info "p" (TSub (SIri "c")) []]]; ni_in := [] |}, "p"%string, (TSub (SIri "c")), [true].
  exists {| r_pred := chars "p"; r_target := chars "c"; r_depth := 0 |}. split; [|repeat split; vm_compute; auto].
  assert (W : forall c : N, (97 <=? c)%N && (c <=? 122)%N = true -> ~ In c spaces).
  { intros c E I. apply white_true in I. revert E I. unfold white. rewrite !orb_true_iff, !andb_true_iff, !N.leb_le, !N.eqb_eq. lia. }
  assert (O : forall c : N, (97 <=? c)%N && (c <=? 122)%N = true -> one_line [c]).
  { intros c E. split; [intros [-> |[]]; discriminate E|]. exists c, [], c. auto. }
  assert (P : forall p, (p = "p" \/ p = "q")%string -> plain p).
  { intros p [-> | ->]; (split; [apply O; reflexivity|]); intros c [<-|[]] D; unfold drawn in D; intuition discriminate. }
  split; [|split].
  - split; [apply O; reflexivity|]. split; [intros [X|[]]; discriminate|]. intros c [<-|[]] D. unfold drawn in D. intuition discriminate.
  - constructor. intros p t rest [[= <- <- <-]|[]]. split; [apply P; auto|]. split; [apply O; reflexivity|].
    constructor. intros p t rest [[= <- <- <-]|[]]. split; [apply P; auto|]. split; [apply O; reflexivity|]. constructor. intros ? ? ? [].
  - constructor. intros ? ? ? [].
Qed.
Print Assumptions C99_depth_refuted.
(* A literal with a line break can make arcs that are not there, or move the arcs after it to the other side. *)
Definition code (l : list N) : string := string_of_list_ascii (List.map ascii_of_N l).
Theorem C99_lines_refuted :
  (exists i, ni_in i = [] /\ List.length (ni_out i) = 2 /\ rd_in (read (output [i])) = [] /\ List.map r_pred (rd_out (read (output [i]))) = [chars "p"]) /\
  exists i a, ni_in i = [] /\ In a (rd_in (read (output (L := {|
    show_pred := chars; show_term := fun t => match t with TSub _ => [97]%N | TLit l => [34; 10]%N ++ title In_ ++ [10; 120; 32; 9472; 9472; 32; 121; 34]%N end |}) [i]))) /\ r_pred a = chars "x".
Proof.
  split.
  - exists {| ni_node := SIri "a"; ni_out := [Info "p" (TLit (String.append (code [10]%N) (String.append "incoming arcs" (code [10]%N)))) []; Info "q" (TSub (SIri "b")) []]; ni_in := [] |}.
    repeat split; vm_compute; reflexivity.
  - exists {| ni_node := SIri "a"; ni_out := [Info "p" (TLit "") []]; ni_in := [] |}. eexists. split; [reflexivity|].
    split; [vm_compute; left; reflexivity|reflexivity].
Qed.
Print Assumptions C99_lines_refuted.
(* A predicate with a character of the tree is altered. *)
Theorem C99_predicate_refuted : exists (L : lib) i, List.map r_pred (rd_out (read (output (L := L) [i]))) = [[112; 113]%N] /\
  exists p t, ni_out i = [Info p t []] /\ show_pred p = [112; 9472; 113]%N.
Proof.
  exists {| show_pred := fun _ => [112; 9472; 113]%N; show_term := fun _ => [97]%N |}, {| ni_node := SIri "a"; ni_out := [Info "p" (TSub (SIri "b")) []]; ni_in := [] |}.
  split; [vm_compute; reflexivity|]. exists "p"%string, (TSub (SIri "b")). split; reflexivity.
Qed.
Print Assumptions C99_predicate_refuted.
