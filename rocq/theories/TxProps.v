(** The schema that an application profile is converted to asks of graphs what the profile asks (C80). *)
From Coq Require Import String List Arith Bool ZArith Lia Permutation Cantor.
Import ListNotations.
From Verif Require Import EngineModel EngineSpec ProveModel ProveSpec CompModel CompSpec CompSchema CompProps TapModel TapSpec TapLemmas TxModel TxSpec TxLemmas TxFinal.

Section Props.
  Variable is_iri : str -> bool.
  Variable prefixes : list (str * str).
  Variable base : option str.
  Variable delimiter : nat.
  Variable number : str -> nat.
  Variable datatype_kind : str -> nat.
  Variable values_kind : list str -> nat.
  Notation named := (names (fun x => is_iri x = true) prefixes base).
  Notation convert := (convert is_iri prefixes base delimiter number datatype_kind values_kind).

  (** Names are resolved as the specification says. *)
  Theorem C80_names (s i : str) : resolve_iri is_iri prefixes base s = Ok i <-> named s i.
  Proof. exact (resolve_iff is_iri prefixes base s i). Qed.

  (** A profile is converted exactly when all its names can be resolved and it has no pattern. *)
  Theorem C80_converts (tap : list tapshape) : (exists sch, convert tap = Ok sch) <-> forall s, In s tap -> convertible named delimiter s.
  Proof. apply convert_ok. Qed.

  (** Every shape of the profile is declared once, in order, under its name, as a shape that is neither abstract nor closed, and
      with the extensions that it names. *)
  Theorem C80_declares (tap : list tapshape) (sch : aschema) : convert tap = Ok sch ->
    a_start sch = None /\
    Forall2 (fun s d => labelled named number s (d_id d) /\ d_abstract d = false /\
      exists te es is, d_expr d = AShape None None te es /\ Forall2 (fun e i => named (fst e) i) (t_extends s) is /\ es = map number is) tap (a_shapes sch).
  Proof.
    unfold TxModel.convert. destruct (map_res _ tap) as [ds| |] eqn:M; cbn [bind]; try discriminate. intros [= <-]. split; [reflexivity|]. cbn [a_shapes].
    apply map_res_iff in M. induction M as [|s d tap ds E M IH]; constructor; [|exact IH].
    apply decl_inv in E as (id & i & e & Ei & N & Ee & ->). cbn [d_id d_abstract d_expr]. split; [exists id, i; auto|]. split; [reflexivity|].
    unfold tapshape_to_se in Ee. destruct (map_res _ (t_statements s)) as [tes| |]; cbn [bind] in Ee; try discriminate.
    destruct (map_res _ (t_extends s)) as [is| |] eqn:ME; cbn [bind] in Ee; try discriminate. injection Ee as <-.
    eexists _, _, is. split; [reflexivity|]. split; [|reflexivity]. apply map_res_iff in ME. clear -ME. induction ME as [|e i l is E M IH]; constructor; [|exact IH].
    apply C80_names, E.
  Qed.

  Section Means.
  Variable eval : nat -> nat -> bool.
  Variable ext : nat -> bool.
  Variable node : str -> nat.
  Variable has_datatype : nat -> str -> Prop.
  Variable has_kind : nat -> basic -> Prop.
  Variable matches : nat -> str -> Prop.
  Variable g : rdf.
  Notation has_tap_shape := (has_tap_shape named delimiter number node has_datatype has_kind matches g).

  (** The nodes that have a shape of the schema are those that have the shape of the profile.  The full statement does not ask for
      [supported]: it is refuted below. *)
  Theorem C80_means_partial (tap : list tapshape) (sch : aschema) (n l : nat) :
    convert tap = Ok sch -> conditions_right eval datatype_kind values_kind node has_datatype -> (forall i j, number i = number j -> i = j) ->
    (forall s, In s tap -> supported named s) ->
    (has_shape eval ext g [] sch n l <-> has_tap_shape tap n l).
  Proof. intros C R I SU. exact (means is_iri prefixes base delimiter number datatype_kind values_kind eval ext node has_datatype has_kind matches g R I tap sch C SU n l). Qed.

  (** So does the engine, when it validates with the compiled schema. *)
  Theorem C80_validates_partial (tap : list tapshape) (sch : aschema) (known : nat -> bool) (fuel : nat) (s : ir)
      (default_pred : nat) (check_extends : nat -> nat -> EngineModel.shape -> (nat -> bool) -> bool)
      (ord : nat -> list nat -> list nat) (steps : nat) (pending : list nat) (r : list (nat * bool)) (st : ProveModel.state) (n l i : nat) (b : bool) :
    convert tap = Ok sch -> conditions_right eval datatype_kind values_kind node has_datatype -> (forall i j, number i = number j -> i = j) ->
    (forall s, In s tap -> supported named s) -> distinct_ids named number tap ->
    compile_ir known fuel [] sch = Ok s -> orders ord -> NoDup g -> index_of s l i ->
    engine_run eval (fun n _ => ext n) default_pred check_extends (compiled s) g ord steps pending fresh = (Some r, st) -> In (EngineModel.key n i, b) r ->
    (b = true <-> has_tap_shape tap n l).
  Proof.
    intros C R IN SU D K O NG H E I. rewrite <- (C80_means_partial tap sch n l C R IN SU).
    destruct (C80_declares tap sch C) as [ST DE].
    apply (C67_validates_partial known fuel [] sch s eval ext g default_pred check_extends ord steps pending r st n l i b K); try assumption.
    - intros a a' d d' [<-|[]] [<-|[]] Id Id'. split; [|congruence]. intro Q.
      apply In_nth_error in Id as (x & X). apply In_nth_error in Id' as (y & Y).
      destruct (nth_error_Forall2 _ _ _ _ _ DE X) as (sx & Sx & Lx & _). destruct (nth_error_Forall2 _ _ _ _ _ DE Y) as (sy & Sy & Ly & _).
      rewrite Q in Lx. pose proof (D x y sx sy _ Sx Sy Lx Ly). subst y. congruence.
    - intros q te te' (a & e & closed & extra & te0 & extends & [<-|[]] & P & W & L) _. exfalso. destruct P as [P|(d & Id & <-)]; [congruence|].
      exact (unlabelled is_iri prefixes base delimiter number datatype_kind values_kind tap sch C SU d closed extra te0 extends q te Id W L).
    - exact (fragment is_iri prefixes base delimiter number datatype_kind values_kind eval ext node has_datatype has_kind matches g R IN tap sch C SU).
  Qed.
  End Means.
End Props.
Print Assumptions C80_names.
Print Assumptions C80_converts.
Print Assumptions C80_declares.
Print Assumptions C80_means_partial.
Print Assumptions C80_validates_partial.

(** ** examples *)
Definition all_iris (s : str) : bool := true.
(** prefixes whose namespaces are short, so that their numbers are small *)
Definition short : list (str * str) := [(lit "s", [0]); (lit "p", [1]); (lit "d", [2]); (lit "e", [3]); (lit "v", [4])].
Fixpoint code (s : str) : nat := match s with [] => 0 | c :: r => S (to_nat (c, code r)) end.
Lemma code_injective i j : code i = code j -> i = j.
Proof.
  revert j. induction i as [|c i IH]; intros [|d j]; cbn [code]; intro E; try discriminate; [reflexivity|].
  apply eq_add_S, to_nat_inj in E. injection E as -> E. f_equal. apply IH, E.
Qed.
(** conditions: datatypes and lists of values have different numbers *)
Definition dt (s : str) : nat := 2 * code s.
Fixpoint codes_of (l : list str) : nat := match l with [] => 0 | s :: r => S (to_nat (code s, codes_of r)) end.
Definition vals (l : list str) : nat := 2 * codes_of l + 1.
(** the nodes below 10 have the datatype with the namespace of d *)
Definition typed (v : nat) (i : str) : Prop := i = [2] /\ v < 10.
Fixpoint decode (n fuel : nat) : str :=
  match fuel, n with S f, S m => let (c, r) := of_nat m in c :: decode r f | _, _ => [] end.
Lemma codes_injective i j : codes_of i = codes_of j -> i = j.
Proof.
  revert j. induction i as [|c i IH]; intros [|d j]; cbn [codes_of]; intro E; try discriminate; [reflexivity|].
  apply eq_add_S, to_nat_inj in E. injection E as E1 E2. apply code_injective in E1. f_equal; [exact E1|apply IH, E2].
Qed.
Lemma to_nat_ge c r : c <= to_nat (c, r) /\ r <= to_nat (c, r).
Proof. pose proof (to_nat_spec c r). nia. Qed.
Fixpoint strings (n fuel : nat) : list str :=
  match fuel, n with S f, S m => let (c, r) := of_nat m in decode c c :: strings r f | _, _ => [] end.
Lemma decode_code s : forall f, code s <= f -> decode (code s) f = s.
Proof.
  induction s as [|c s IH]; intros f L; [destruct f; reflexivity|]. cbn [code] in *. destruct f as [|f]; [lia|]. cbn [decode]. rewrite cancel_of_to. f_equal. apply IH.
  pose proof (to_nat_ge c (code s)). lia.
Qed.
Lemma strings_codes l : forall f, codes_of l <= f -> strings (codes_of l) f = l.
Proof.
  induction l as [|s l IH]; intros f L; [destruct f; reflexivity|]. cbn [codes_of] in *. destruct f as [|f]; [lia|]. cbn [strings]. rewrite cancel_of_to. f_equal; [apply decode_code; lia|]. apply IH.
  pose proof (to_nat_ge (code s) (codes_of l)). lia.
Qed.
Definition check (k v : nat) : bool :=
  if Nat.even k then Nat.eqb (Nat.div2 k) (code [2]) && Nat.ltb v 10 else existsb (fun i => Nat.eqb v (code i)) (strings (Nat.div2 k) (Nat.div2 k)).
Lemma check_right : conditions_right check dt vals code typed.
Proof.
  split.
  - intros i v. unfold check, dt, typed. rewrite Nat.even_mul. cbn [Nat.even orb]. rewrite Nat.div2_double, andb_true_iff, Nat.eqb_eq, Nat.ltb_lt.
    split; intros [H L]; (split; [|exact L]); [apply code_injective, H|rewrite H; reflexivity].
  - intros l v. unfold check, vals. assert (E : Nat.even (2 * codes_of l + 1) = false) by (rewrite Nat.add_1_r, Nat.even_succ, <- Nat.negb_even, Nat.even_mul; reflexivity).
    rewrite E, Nat.add_1_r, Nat.div2_succ_double, strings_codes by lia. rewrite existsb_exists. split; intros (i & I & H); exists i; (split; [exact I|]); apply Nat.eqb_eq, H.
Qed.
Notation named := (names (fun x => all_iris x = true) short None).
Notation convert_ := (convert all_iris short None 124 code dt vals).
Notation has_shape_ := (fun g => has_shape check (fun _ => false) g []).
Notation has_tap_shape_ := (has_tap_shape named 124 code code typed (fun _ b => b = BIri) (fun _ _ => False)).

Definition st (p : string) (m r : option bool) (nt : option nodetype) (ds : list string) (vs : option string) (c : option constraint) : statement :=
  mkStatement (lit p) None m r nt (map lit ds) (option_map lit vs) c None.
Definition sh (id : string) (l : list statement) : tapshape := mkTapshape (Some (lit id)) None l [].
(** the shape s: has exactly one value of p:, of one of two datatypes, and any number of values of v: with the shape s: *)
Definition met_tap : list tapshape :=
  [sh "s:" [st "p:" (Some true) (Some false) None ["d:"; "e:"]%string None None; st "v:" (Some false) (Some true) None [] (Some "s:"%string) None]].
(** node 1 has p and a v that is a node with p *)
Definition met_g : rdf := [(1, code [1], 7); (1, code [4], 2); (2, code [1], 8); (3, code [1], 30)].
Ltac resolved := apply C80_names; vm_compute; reflexivity.
Lemma supported_distinct s : t_extends s = [] -> Forall supported_statement (t_statements s) ->
  NoDup (map (fun x => resolve_iri all_iris short None (s_property x)) (t_statements s)) -> supported named s.
Proof.
  intros E F N. split; [exact E|]. split; [intros x I; exact (proj1 (Forall_forall _ _) F x I)|].
  intros i j x y p X Y P Q. apply C80_names in P, Q. apply (proj1 (NoDup_nth_error _) N).
  - rewrite map_length. apply nth_error_Some. congruence.
  - rewrite !nth_error_map, X, Y. cbn. rewrite P, Q. reflexivity.
Qed.
Ltac supports := intros s [<-|[]]; apply supported_distinct; [reflexivity|repeat constructor; vm_compute; discriminate|vm_compute; repeat constructor; cbn; intuition discriminate].

Example C80_met :
  exists sch, convert_ met_tap = Ok sch /\ (forall s, In s met_tap -> supported named s) /\ distinct_ids named code met_tap /\
    has_tap_shape_ met_g met_tap 1 (code [0]) /\ has_shape_ met_g sch 1 (code [0]) /\ ~ has_shape_ met_g sch 3 (code [0]).
Proof.
  assert (S0 : forall s, In s met_tap -> supported named s) by supports.
  eexists. split; [vm_compute; reflexivity|]. split; [exact S0|]. split.
  { intros [|i] [|j] s s' l; cbn; try (destruct i; discriminate); try (destruct j; discriminate). reflexivity. }
  assert (H : has_tap_shape_ met_g met_tap 1 (code [0])).
  { exists (fun m j => (Nat.eqb m 1 || Nat.eqb m 2) && Nat.eqb j (code [0])). split; [reflexivity|]. intros m j E. apply andb_true_iff in E as [E J]. apply Nat.eqb_eq in J as ->.
    eexists. split; [left; reflexivity|]. split; [exists (lit "s:"), [0]; split; [reflexivity|]; split; [resolved|reflexivity]|].
    apply orb_true_iff in E. intros x [<-|[<-|[]]].
    - exists [1]. destruct E as [E|E]; apply Nat.eqb_eq in E as ->.
      + exists [7]. split; [resolved|]. split; [repeat constructor; intros []|]. split; [intro v; vm_compute; split; [intros [<-|[]]; auto|intuition congruence]|].
        split; [discriminate|]. split; [intros _; cbn; lia|]. intros v [<-|[]]. split; [right; exists (lit "d:"), [2]; split; [left; reflexivity|]; split; [resolved|split; [reflexivity|lia]]|]. repeat split.
      + exists [8]. split; [resolved|]. split; [repeat constructor; intros []|]. split; [intro v; vm_compute; split; [intros [<-|[]]; auto|intuition congruence]|].
        split; [discriminate|]. split; [intros _; cbn; lia|]. intros v [<-|[]]. split; [right; exists (lit "d:"), [2]; split; [left; reflexivity|]; split; [resolved|split; [reflexivity|lia]]|]. repeat split.
    - exists [4]. destruct E as [E|E]; apply Nat.eqb_eq in E as ->.
      + exists [2]. split; [resolved|]. split; [repeat constructor; intros []|]. split; [intro v; vm_compute; split; [intros [<-|[]]; auto|intuition congruence]|].
        split; [discriminate|]. split; [intro N; exfalso; apply N; reflexivity|]. intros v [<-|[]]. split; [left; reflexivity|]. split; [exact Logic.I|]. split; [|exact Logic.I].
        intros _. exists (lit "s:"), [0]. split; [apply refers_iff; vm_compute; auto|]. split; [resolved|reflexivity].
      + exists []. split; [resolved|]. split; [constructor|]. split; [intro v; vm_compute; split; [intros []|intuition congruence]|].
        split; [discriminate|]. split; [intro N; exfalso; apply N; reflexivity|]. intros v []. }
  split; [exact H|]. split.
  - refine (proj2 (C80_means_partial all_iris short None 124 code dt vals check (fun _ => false) code typed (fun _ b => b = BIri) (fun _ _ => False) met_g met_tap _ 1 (code [0]) _ check_right code_injective S0) H). vm_compute. reflexivity.
  - intro HS. apply (C80_means_partial all_iris short None 124 code dt vals check (fun _ => false) code typed (fun _ b => b = BIri) (fun _ _ => False) met_g met_tap _ 3 (code [0])) in HS; [|vm_compute; reflexivity|exact check_right|exact code_injective|exact S0].
    destruct HS as (T & Tn & HT). destruct (HT _ _ Tn) as (s & [<-|[]] & _ & C). destruct (C _ (or_introl eq_refl)) as (p & vs & P & _ & IV & _ & _ & V).
    apply C80_names in P. vm_compute in P. injection P as <-. destruct (V 30) as [[D|(d & i & _ & _ & _ & L)] _]; [apply IV; vm_compute; auto|discriminate|lia].
Qed.

(** The shapes of two profiles that are converted to one schema. *)
Lemma same_schema g tap tap' sch n l : convert_ tap = Ok sch -> convert_ tap' = Ok sch -> (forall s, In s tap' -> supported named s) ->
  (has_shape_ g sch n l <-> has_tap_shape_ g tap' n l).
Proof. intros _ C S0. exact (C80_means_partial all_iris short None 124 code dt vals check (fun _ => false) code typed (fun _ b => b = BIri) (fun _ _ => False) g tap' sch n l C check_right code_injective S0). Qed.
(** node 1 has one value of the property *)
Definition one_g (v : nat) : rdf := [(1, code [1], v)].
Definition property_only : list tapshape := [sh "s:" [st "p:" (Some true) (Some false) None [] None None]].
Lemma property_supported : forall s, In s property_only -> supported named s.
Proof. supports. Qed.
Lemma property_there v : has_tap_shape_ (one_g v) property_only 1 (code [0]).
Proof.
  exists (fun m j => Nat.eqb m 1 && Nat.eqb j (code [0])). split; [reflexivity|]. intros m j E. apply andb_true_iff in E as [E J]. apply Nat.eqb_eq in E as ->. apply Nat.eqb_eq in J as ->.
  eexists. split; [left; reflexivity|]. split; [exists (lit "s:"), [0]; split; [reflexivity|]; split; [resolved|reflexivity]|]. intros x [<-|[]].
  exists [1], [v]. split; [resolved|]. split; [repeat constructor; intros []|]. split; [intro w; vm_compute; split; [intros [<-|[]]; auto|intuition congruence]|].
  split; [discriminate|]. split; [intros _; cbn; lia|]. intros w [<-|[]]. repeat split. left. reflexivity.
Qed.
(** the value of the property is not as the first statement of the profile asks *)
Lemma value_wrong v s x : t_statements s = [x] -> s_property x = lit "p:" ->
  (forall T, ~ value_ok named 124 code code typed (fun _ b => b = BIri) (fun _ _ => False) T x v) -> ~ has_tap_shape_ (one_g v) [s] 1 (code [0]).
Proof.
  intros HD EP NV (T & Tn & HT). destruct (HT _ _ Tn) as (s' & [<-|[]] & _ & C).
  assert (I : In x (t_statements s)) by (rewrite HD; left; reflexivity). destruct (C x I) as (p & vs & P & _ & IV & _ & _ & V).
  rewrite EP in P. apply C80_names in P. vm_compute in P. injection P as <-. apply (NV T). apply V. apply IV. left. reflexivity.
Qed.

(** The only datatype of a statement is dropped. *)
Theorem C80_datatype_refuted :
  exists tap sch, convert_ tap = Ok sch /\ (forall s x, In s tap -> In x (t_statements s) -> s_mandatory x <> None /\ s_nodetype x = None) /\
    has_shape_ (one_g 30) sch 1 (code [0]) /\ ~ has_tap_shape_ (one_g 30) tap 1 (code [0]).
Proof.
  exists [sh "s:" [st "p:" (Some true) (Some false) None ["d:"]%string None None]]. eexists. split; [vm_compute; reflexivity|].
  split; [intros s x [<-|[]] [<-|[]]; split; [discriminate|reflexivity]|]. split.
  - refine (proj2 (same_schema (one_g _) property_only property_only _ 1 (code [0]) _ _ property_supported) (property_there _)); vm_compute; reflexivity.
  - eapply value_wrong; [reflexivity|reflexivity|]. intros T [[D|(d & i & _ & _ & _ & L)] _]; [discriminate|lia].
Qed.
Print Assumptions C80_datatype_refuted.

(** So is the list of values beside it: the value 7 has the datatype. *)
Theorem C80_list_refuted :
  exists tap sch, convert_ tap = Ok sch /\ (forall s x, In s tap -> In x (t_statements s) -> s_mandatory x <> None /\ s_nodetype x = None /\
      exists d, s_datatypes x = [d] /\ exists i, named d i /\ typed 7 i) /\
    has_shape_ (one_g 7) sch 1 (code [0]) /\ ~ has_tap_shape_ (one_g 7) tap 1 (code [0]).
Proof.
  exists [sh "s:" [st "p:" (Some true) (Some false) None ["d:"]%string None (Some (PickList [lit "v:"]))]]. eexists. split; [vm_compute; reflexivity|]. split.
  - intros s x [<-|[]] [<-|[]]. split; [discriminate|]. split; [reflexivity|]. exists (lit "d:"). split; [reflexivity|]. exists [2]. split; [resolved|]. split; [reflexivity|lia].
  - split.
    + refine (proj2 (same_schema (one_g _) property_only property_only _ 1 (code [0]) _ _ property_supported) (property_there _)); vm_compute; reflexivity.
    + eapply value_wrong; [reflexivity|reflexivity|]. intros T (_ & (x & i & [<-|[]] & P & E) & _). apply C80_names in P. vm_compute in P. injection P as <-. vm_compute in E. discriminate.
Qed.
Print Assumptions C80_list_refuted.

(** The kind of node is dropped. *)
Theorem C80_nodetype_refuted :
  exists tap sch, convert_ tap = Ok sch /\ (forall s x, In s tap -> In x (t_statements s) -> s_mandatory x <> None /\ length (s_datatypes x) <> 1) /\
    has_shape_ (one_g 30) sch 1 (code [0]) /\ ~ has_tap_shape_ (one_g 30) tap 1 (code [0]).
Proof.
  exists [sh "s:" [st "p:" (Some true) (Some false) (Some (NBasic BLiteral)) [] None None]]. eexists. split; [vm_compute; reflexivity|].
  split; [intros s x [<-|[]] [<-|[]]; split; discriminate|]. split.
  - refine (proj2 (same_schema (one_g _) property_only property_only _ 1 (code [0]) _ _ property_supported) (property_there _)); vm_compute; reflexivity.
  - eapply value_wrong; [reflexivity|reflexivity|]. intros T (_ & _ & _ & K). discriminate K.
Qed.
Print Assumptions C80_nodetype_refuted.

(** A property that is not said to be mandatory is. *)
Theorem C80_mandatory_refuted :
  exists tap sch, convert_ tap = Ok sch /\ (forall s x, In s tap -> In x (t_statements s) -> s_nodetype x = None /\ length (s_datatypes x) <> 1) /\
    has_tap_shape_ [] tap 1 (code [0]) /\ ~ has_shape_ [] sch 1 (code [0]).
Proof.
  exists [sh "s:" [st "p:" None (Some false) None [] None None]]. eexists. split; [vm_compute; reflexivity|].
  split; [intros s x [<-|[]] [<-|[]]; split; [reflexivity|discriminate]|]. split.
  - exists (fun m j => Nat.eqb j (code [0])). split; [reflexivity|]. intros m j J. apply Nat.eqb_eq in J as ->.
    eexists. split; [left; reflexivity|]. split; [exists (lit "s:"), [0]; split; [reflexivity|]; split; [resolved|reflexivity]|]. intros x [<-|[]].
    exists [1], []. split; [resolved|]. split; [constructor|]. split; [intro v; split; intros []|]. split; [discriminate|]. split; [intros _; cbn; lia|]. intros v [].
  - intro HS. apply (same_schema [] property_only property_only _ 1 (code [0])) in HS; [|vm_compute; reflexivity|vm_compute; reflexivity|exact property_supported].
    destruct HS as (T & Tn & HT). destruct (HT _ _ Tn) as (s' & [<-|[]] & _ & C). destruct (C _ (or_introl eq_refl)) as (p & vs & P & _ & IV & M & _ & _).
    destruct vs as [|v vs]; [exact (M eq_refl eq_refl)|]. exact (proj1 (IV v) (or_introl eq_refl)).
Qed.
Print Assumptions C80_mandatory_refuted.

(** The names of shapes are not separated by the delimiter, unless there is white space around it. *)
Theorem C80_delimiter_refuted :
  exists cell l tap, pieces 124 cell l /\ (forall w, In w l -> exists i, named w i) /\
    (forall s x, In s tap -> In x (t_statements s) -> s_value_shape x = Some cell) /\ convert_ tap = Err.
Proof.
  exists (lit "s:|e:"), [lit "s:"; lit "e:"], [sh "s:" [st "p:" (Some true) (Some false) None [] (Some "s:|e:"%string) None]].
  split; [apply pieces_iff; vm_compute; reflexivity|]. split; [intros w [<-|[<-|[]]]; eexists; resolved|].
  split; [intros s x [<-|[]] [<-|[]]; reflexivity|]. vm_compute. reflexivity.
Qed.
Print Assumptions C80_delimiter_refuted.
