(** Compiling a ShEx schema preserves its meaning (C67). *)
From Coq Require Import List Arith Bool ZArith Lia Permutation.
Import ListNotations.
From Verif Require Import RbeModel RbeSpec PendingModel TableModel TableSpec GraphModel GraphSpec ProveModel ProveSpec EngineModel EngineSpec EngineProps
  CompModel CompSpec CompLemmas CompMeaning CompDecide CompSchema CompTyping CompFragment.

(** the index of a label in the compiled schema *)
Definition index_of (s : ir) (l i : nat) : Prop := lookup l (ir_labels s) = Some i.

Section Props.
  Variable known : nat -> bool.
  Variable fuel : nat.
  Variable imported : list aschema.
  Variable root : aschema.
  Variable s : ir.
  Variable eval : nat -> nat -> bool.
  Variable ext : nat -> bool.
  Variable g : rdf.

  (** Every declared label, and no other, has an index; different labels have different ones. *)
  Theorem C67_labels : compile_ir known fuel imported root = Ok s -> consistent imported root ->
    (forall l, (exists i, index_of s l i) <-> exists e, declared imported root l e) /\
    (forall l l' i, index_of s l i -> index_of s l' i -> l = l') /\
    (forall l i, index_of s l i -> exists e, find (compiled s) i = Some e).
  Proof.
    intros OK D. pose proof (c_labels known fuel imported root s OK D) as CL. split; [|split].
    - intro l. rewrite <- declared_id. split.
      + intros (i & H). apply CL in H. exact (nth_error_In _ _ H).
      + intro I. apply (declared_id imported root) in I. destruct I as (e & DE).
        destruct (c_declared known fuel imported root s OK D l e DE) as (i & _ & Mi & _). exists i. exact Mi.
    - intros l l' i A B. apply CL in A, B. congruence.
    - intros l i H. destruct (label_at known fuel imported root s OK D l i H) as (_ & e & _ & _ & C).
      destruct (codes_some _ _ _ _ _ C) as (se & E). exists se. rewrite compiled_find. exact E.
  Qed.

  (** The typings that solve the schema are the ones that solve the compiled schema, restricted to the labels. *)
  Theorem C67_solutions (T : typing) : compile_ir known fuel imported root = Ok s -> consistent imported root -> unambiguous imported root ->
    (solves eval ext g imported root T <->
     exists T' : typing, (forall n l i, index_of s l i -> T n l = T' n i) /\ solves_compiled eval ext g (compiled s) T').
  Proof.
    intros OK D U. split.
    - exact (solves_ir_all known fuel imported root s OK D eval ext g T).
    - intros (T' & HT & S). exact (ir_solves known fuel imported root s OK D U eval ext g T T' HT S).
  Qed.
  (** The indices made for parts of expressions add no freedom. *)
  Theorem C67_determined (T1 T2 : typing) : compile_ir known fuel imported root = Ok s -> consistent imported root ->
    (forall n l i, index_of s l i -> T1 n i = T2 n i) ->
    solves_compiled eval ext g (compiled s) T1 -> solves_compiled eval ext g (compiled s) T2 ->
    forall n i e, find (compiled s) i = Some e -> T1 n i = T2 n i.
  Proof.
    intros OK D H S1 S2 n i e F. rewrite compiled_find in F.
    exact (solves_ir_unique known fuel imported root s OK D eval ext g T1 T2 H S1 S2 n i (entries_dom s i e F)).
  Qed.

  (** A node with a shape has it in the compiled schema. *)
  Theorem C67_complete (n l i : nat) : compile_ir known fuel imported root = Ok s -> consistent imported root -> unambiguous imported root ->
    index_of s l i -> has_shape eval ext g imported root n l -> conforms eval (fun n _ => ext n) (shape_holds eval g) (compiled s) n i.
  Proof. intros OK D U. exact (has_conforms known fuel imported root s OK D U eval ext g n l i). Qed.
  (** Without negation the greatest typing of the compiled schema is that of the schema. *)
  Theorem C67_greatest_partial (n l i : nat) : compile_ir known fuel imported root = Ok s -> consistent imported root -> unambiguous imported root ->
    all_positive imported root -> index_of s l i ->
    (conforms eval (fun n _ => ext n) (shape_holds eval g) (compiled s) n i <-> has_shape eval ext g imported root n l).
  Proof.
    intros OK D U P H. split; [|exact (C67_complete n l i OK D U H)].
    exact (conforms_has known fuel imported root s OK D eval ext g (positive_compiled known fuel imported root s OK D P) n l i H).
  Qed.

  (** From the syntax tree to the verdict: in the fragment the engine on the compiled schema answers by the meaning
      of the schema. *)
  Theorem C67_validates_partial (default_pred : nat) (check_extends : nat -> nat -> shape -> (nat -> bool) -> bool)
      (ord : nat -> list nat -> list nat) (steps : nat) (pending : list nat) (r : list (nat * bool)) (st : state) (n l i : nat) (b : bool) :
    compile_ir known fuel imported root = Ok s -> consistent imported root -> unambiguous imported root -> all_in_fragment imported root ->
    orders ord -> NoDup g -> index_of s l i ->
    engine_run eval (fun n _ => ext n) default_pred check_extends (compiled s) g ord steps pending fresh = (Some r, st) -> In (key n i, b) r ->
    (b = true <-> has_shape eval ext g imported root n l).
  Proof.
    intros OK D U F O NG H R I.
    rewrite <- (C67_greatest_partial n l i OK D U (fragment_positive imported root F) H).
    pose proof (shape_facts known fuel imported root s OK D F) as SF.
    refine (C12_greatest_shex_typing_partial eval (fun n _ => ext n) default_pred check_extends (compiled s) g ord steps pending r st n i b O NG _ _ _ _ _ R I).
    - exact (compiled_no_inheritance known fuel imported root s OK D F).
    - intros j sh E. apply (SF j sh E).
    - intros j sh E. apply (SF j sh E).
    - exact (compiled_without_negation known fuel imported root s OK D F).
    - intros j sh E. apply (SF j sh E).
  Qed.

  (** Every index that the compiled schema uses is defined in it. *)
  Theorem C67_defined : compile_ir known fuel imported root = Ok s -> consistent imported root -> defined (compiled s).
  Proof.
    intros OK D i j (e & F & U). rewrite compiled_find in F. destruct (all_coded known fuel imported root s OK D i e F) as [->|(l & e0 & x & _ & _ & C)]; [destruct U|].
    set (M := label_index s) in *. set (L0 := length (declarations imported root)) in *.
    assert (X : forall l' k, M l' = Some k -> exists e, find (compiled s) k = Some e).
    { intros l' k H. exact (proj2 (proj2 (C67_labels OK D)) l' k H). }
    assert (Y : forall k x, codes (entry s) M L0 k x -> exists e, find (compiled s) k = Some e).
    { intros k y H. rewrite compiled_find. exact (codes_some _ _ _ _ _ H). }
    assert (Z : forall is l, codes_ses (entry s) M L0 is l -> forall k, In k is -> exists e, find (compiled s) k = Some e).
    { intros is es H. induction H as [|k y is es [_ H] F2 IH]; [intros k []|]. intros k' [<-|I]; [exact (Y _ _ H)|exact (IH k' I)]. }
    destruct x as [es|es|y|ps|closed extra o ex| |r].
    - apply codes_or in C. destruct C as (is & A & C). assert (e = EOr is) as -> by congruence. exact (Z _ _ C j U).
    - apply codes_and in C. destruct C as (is & A & C). assert (e = EAnd is) as -> by congruence. exact (Z _ _ C j U).
    - destruct C as (k & A & _ & C). assert (e = ENot k) as -> by congruence. cbn in U. subst j. exact (Y _ _ C).
    - cbn in C. assert (e = ENode (node_cond ps)) as -> by congruence. destruct U.
    - cbn [codes] in C. destruct C as (t & ps & exts & A & FE & C).
      assert (e = EShape (mkShape (cnv_closed closed) (cnv_extra extra) t ps exts)) as -> by congruence.
      destruct U as [U|(c & k & cd & v & v' & CC & N)]; cbn [s_extends s_table] in *.
      + clear -FE U X. induction FE as [|a b es is H FE IH]; [destruct U|]. destruct U as [<-|U]; [exact (X _ _ H)|exact (IH U)].
      + destruct o as [te|]; [|destruct C as [C _]; destruct (no_components t c k cd C CC)]. destruct C as (t0 & r0 & -> & B & _ & C & _).
        destruct (component_constraint _ c k cd B C eq_refl CC) as (_ & v0 & acts & cv & -> & _ & V). apply acts_needs in N.
        destruct v0 as [[l1|l1|e1|qs|c1 x1 o1 e1| |r2]|]; cbn [cond_codes] in V.
        * destruct V as (k' & -> & _ & V). destruct N as [_ ->]. exact (Y _ _ V).
        * destruct V as (k' & -> & _ & V). destruct N as [_ ->]. exact (Y _ _ V).
        * destruct V as (k' & -> & _ & V). destruct N as [_ ->]. exact (Y _ _ V).
        * rewrite V in N. destruct (node_needs _ _ _ _ N).
        * destruct V as (k' & -> & _ & V). destruct N as [_ ->]. exact (Y _ _ V).
        * destruct V as (k' & -> & _ & V). destruct N as [_ ->]. exact (Y _ _ V).
        * destruct V as (k' & V & ->). destruct N as [_ ->]. exact (X _ _ V).
        * rewrite V in N. destruct N.
    - cbn in C. assert (e = EExternal) as -> by congruence. destruct U.
    - destruct C as (k & A & H). assert (e = ERef k) as -> by congruence. cbn in U. subst j. exact (X _ _ H).
  Qed.

  (** Inheritance: a shape extends the indices of the labels it extends, and the abstract indices are those of the
      abstract declarations. *)
  Theorem C67_extends (l : nat) (closed : option bool) (extra : option (list nat)) (te : option ate) (extends : list nat) :
    compile_ir known fuel imported root = Ok s -> consistent imported root -> declared imported root l (AShape closed extra te extends) ->
    exists i sh, index_of s l i /\ find (compiled s) i = Some (EShape sh) /\ Forall2 (index_of s) extends (s_extends sh).
  Proof.
    intros OK D DE. destruct (c_declared known fuel imported root s OK D l _ DE) as (i & e & Mi & UE & C).
    assert (X : exists o, e = AShape closed extra o extends) by (inversion UE; subst; eauto). destruct X as (o & ->).
    cbn [codes] in C. destruct C as (t & ps & exts & A & FE & _). eexists i, _. split; [exact Mi|]. split; [rewrite compiled_find; exact A|exact FE].
  Qed.
  Theorem C67_abstract (l i : nat) : compile_ir known fuel imported root = Ok s -> consistent imported root -> index_of s l i ->
    (In i (abstract (compiled s)) <-> exists a d, In a (imported ++ [root]) /\ In d (a_shapes a) /\ d_id d = l /\ d_abstract d = true).
  Proof.
    intros OK D H. cbn [compiled abstract]. rewrite (c_abstract known fuel imported root s OK D i).
    apply (c_labels known fuel imported root s OK D) in H. rewrite declarations_ids in H.
    set (ds := flat_map a_shapes (imported ++ [root])) in *. split.
    - intros (d & N & A). assert (L : nth_error (map d_id ds) i = Some (d_id d)) by (apply map_nth_error; exact N).
      rewrite nth_error_app1 in H by (apply nth_error_Some; congruence). assert (d_id d = l) as <- by congruence.
      apply nth_error_In in N. apply in_flat_map in N. destruct N as (a & Ia & Id). exists a, d. auto.
    - intros (a & d & Ia & Id & <- & A). destruct (nth_error ds i) as [d'|] eqn:N.
      + exists d'. split; [reflexivity|]. rewrite nth_error_app1 in H by (rewrite map_length; apply nth_error_Some; congruence).
        rewrite (map_nth_error d_id i ds N) in H. injection H as H. apply nth_error_In in N. apply in_flat_map in N. destruct N as (a' & Ia' & Id').
        rewrite (proj1 (D a' a d' d Ia' Ia Id' Id) H). exact A.
      + exfalso. apply nth_error_None in N. rewrite nth_error_app2 in H by (rewrite map_length; exact N). apply nth_error_In in H.
        destruct (a_start root) as [e|] eqn:E; [|destruct H]. destruct H as [H|[]]. destruct (D a a d d Ia Ia Id Id) as [_ X].
        apply X; [rewrite E; discriminate|symmetry; exact H].
  Qed.
  (** Labels that are declared once are declared consistently. *)
  Theorem C67_once_consistent : distinct imported root -> consistent imported root.
  Proof. exact (distinct_consistent imported root). Qed.
End Props.
Print Assumptions C67_labels.
Print Assumptions C67_solutions.
Print Assumptions C67_determined.
Print Assumptions C67_complete.
Print Assumptions C67_greatest_partial.
Print Assumptions C67_validates_partial.
Print Assumptions C67_defined.
Print Assumptions C67_extends.
Print Assumptions C67_abstract.
Print Assumptions C67_once_consistent.

(** ** Examples: the hypotheses of the theorems can be met *)

Ltac look :=
  repeat match goal with
         | H : exists _, _ |- _ => destruct H
         | H : _ /\ _ |- _ => destruct H
         | H : _ \/ _ |- _ => destruct H
         | H : In _ (_ :: _) |- _ => destruct H; subst
         | H : In _ [] |- _ => destruct H
         | H : False |- _ => destruct H
         | H : Some _ = Some _ |- _ => injection H as H
         | H : None = Some _ |- _ => discriminate H
         | H : Some _ = None |- _ => discriminate H
         | H : within _ _ |- _ => inversion H; clear H; subst
         | H : within_te _ _ |- _ => inversion H; clear H; subst
         | H : labelled_in _ _ (ATc _ _ _ _ _ _ _) |- _ => inversion H; clear H; subst
         | H : labelled_in _ _ (AEach _ _ _ _ _) |- _ => inversion H; clear H; subst
         | H : labelled_in _ _ (AOne _ _ _ _ _) |- _ => inversion H; clear H; subst
         | H : labelled_in _ _ (AInc _) |- _ => inversion H; clear H; subst
         | H : has_constraint _ _ _ _ |- _ => inversion H; clear H; subst
         | H : unfold_se _ _ _ |- _ => inversion H; clear H; subst
         | H : unfold_ses _ _ _ |- _ => inversion H; clear H; subst
         | H : unfold_te _ (ATc _ _ _ _ _ _ _) _ |- _ => inversion H; clear H; subst
         | H : unfold_te _ (AEach _ _ _ _ _) _ |- _ => inversion H; clear H; subst
         | H : unfold_te _ (AOne _ _ _ _ _) _ |- _ => inversion H; clear H; subst
         | H : unfold_te _ (AInc _) _ |- _ => inversion H; clear H; subst
         | H : unfold_tes _ _ _ |- _ => inversion H; clear H; subst
         | H : _ = _ |- _ => discriminate H
         end; subst.

(** [start = @<1> OR { value 4 }], [<1> CLOSED EXTRA :2 { :1 @<1> ; &$7 }], and imported [<2> { $7 :2 { value 3 } * }] *)
Definition ex_tc : ate := ATc (Some 7) None 2 (Some (ANode [POne 3])) (Some 0%Z) (Some (-1)%Z) [].
Definition ex_import : aschema := mkAschema None [mkDecl 2 (AShape None None (Some ex_tc) []) false].
Definition ex_root : aschema :=
  mkAschema (Some (AOr [ARef 1; ANode [POne 4]]))
            [mkDecl 1 (AShape (Some true) (Some [2]) (Some (AEach None [ATc None None 1 (Some (ARef 1)) None None []; AInc 7] None None [])) []) false].
Definition all_known (_ : nat) : bool := true.
Definition ex_ir : ir := match compile_ir all_known 9 [ex_import] ex_root with Ok s => s | _ => ir_new end.
Definition ex_value (k v : nat) : bool := Nat.eqb k v.
Definition ex_data : rdf := [(10, 1, 11); (11, 1, 10); (10, 2, 3); (10, 2, 5); (12, 1, 13)].

Lemma ex_labelled r te : labelled [ex_import] ex_root r te -> r = 7 /\ te = ex_tc.
Proof.
  intros (a & e & c & x & t0 & ex & I & S & W & L). cbn in I. destruct I as [<-|[<-|[]]].
  - destruct S as [S|(d & Id & <-)]; [discriminate|]. cbn in Id. destruct Id as [<-|[]]. cbn [d_expr ex_tc] in W. unfold ex_tc in *. look; try discriminate;
      match goal with H : ATc _ _ _ _ _ _ _ = ATc _ _ _ _ _ _ _ |- _ => injection H; intros; subst end; auto.
  - destruct S as [S|(d & Id & <-)].
    + cbn in S. injection S as <-. look.
    + cbn in Id. destruct Id as [<-|[]]. cbn [d_expr] in W. look.
Qed.
Lemma ex_defines l e : defines [ex_import] ex_root l e ->
  e = AOr [ARef 1; ANode [POne 4]] \/ e = AShape None None (Some ex_tc) [] \/
  e = AShape (Some true) (Some [2]) (Some (AEach None [ATc None None 1 (Some (ARef 1)) None None []; ex_tc] None None [])) [].
Proof.
  intros (e0 & [(a & d & I & Id & <- & <-)|[-> S]] & U).
  - cbn in I. destruct I as [<-|[<-|[]]]; cbn in Id; destruct Id as [<-|[]]; cbn [d_expr] in U; unfold ex_tc in *; look; auto.
    match goal with H : labelled _ _ _ _ |- _ => apply ex_labelled in H; destruct H as [_ ->] end. unfold ex_tc in *. look. auto.
  - cbn in S. injection S as <-. look. auto.
Qed.
Example C67_met :
  compile_ir all_known 9 [ex_import] ex_root = Ok ex_ir /\ distinct [ex_import] ex_root /\ consistent [ex_import] ex_root /\ unambiguous [ex_import] ex_root /\
  all_in_fragment [ex_import] ex_root /\ all_positive [ex_import] ex_root /\
  index_of ex_ir 1 1 /\ index_of ex_ir start 2 /\
  fst (engine_run ex_value (fun _ _ => false) 0 no_extends (compiled ex_ir) ex_data id_ord 20 [key 10 2; key 12 1; key 4 2; key 4 1] fresh)
    = Some [(key 10 2, true); (key 12 1, false); (key 4 2, true); (key 4 1, false)].
Proof.
  assert (F : all_in_fragment [ex_import] ex_root).
  { split.
    - intros a d I Id. cbn in I. destruct I as [<-|[<-|[]]]; cbn in Id; destruct Id as [<-|[]]; reflexivity.
    - intros l e DE x W. apply ex_defines in DE. destruct DE as [->|[->| ->]]; look; try exact Logic.I.
      + split; [reflexivity|]. cbn [ex_tc]. split; [exact Logic.I|]. split; [exact Logic.I|]. split; [left; repeat constructor; intros []|]. split; [|discriminate].
        intros k v acts H. inversion H; subst. split; [reflexivity|]. split; [left; reflexivity|]. intros p [].
      + split; [reflexivity|]. split.
        * cbn. split; [exists 1; cbn; lia|]. auto.
        * split; [left; split; [split; left; reflexivity|cbn; auto]|]. split.
          -- left. cbn. repeat constructor; cbn; intuition discriminate.
          -- split.
             ++ intros k v acts H. unfold ex_tc in *. look; (split; [reflexivity|]); (split; [left; reflexivity|]); intros p Hp E; look.
                right. eexists. reflexivity.
             ++ intros _ p Hp. look. cbn. auto. }
  split; [vm_compute; reflexivity|]. assert (DI : distinct [ex_import] ex_root) by (repeat constructor; cbn; intuition discriminate).
  split; [exact DI|]. split; [exact (distinct_consistent _ _ DI)|].
  split; [intros r te te' A B; apply ex_labelled in A, B; destruct A as [_ ->]; destruct B as [_ ->]; reflexivity|].
  split; [exact F|]. split; [exact (fragment_positive _ _ F)|]. split; [reflexivity|]. split; [reflexivity|]. vm_compute. reflexivity.
Qed.

(** ** Where the full statement fails *)

(** [start = { &$7 }], [<1> { $7 :2 { value 3 } * }]: the triple expressions with labels are collected after the start
    expression is compiled, so that it cannot include any. *)
Definition start_root : aschema :=
  mkAschema (Some (AShape None None (Some (AInc 7)) [])) [mkDecl 1 (AShape None None (Some ex_tc) []) false].
Theorem C67_start_inclusion_refuted : exists (root : aschema) (e : ase),
  distinct [] root /\ unambiguous [] root /\ defines [] root start e /\
  forall known fuel s, compile_ir known fuel [] root <> Ok s.
Proof.
  assert (L : forall r te, labelled [] start_root r te -> r = 7 /\ te = ex_tc).
  { intros r te (a & e & c & x & t0 & ex & I & S & W & L). cbn in I. destruct I as [<-|[]].
    destruct S as [S|(d & Id & <-)]; [cbn in S; injection S as <-; look|]. cbn in Id. destruct Id as [<-|[]]. cbn [d_expr] in W. unfold ex_tc in *. look; try discriminate;
      match goal with H : ATc _ _ _ _ _ _ _ = ATc _ _ _ _ _ _ _ |- _ => injection H; intros; subst end; auto. }
  exists start_root, (AShape None None (Some ex_tc) []). split; [repeat constructor; cbn; intuition discriminate|]. split; [|split].
  - intros r te te' A B. apply L in A, B. destruct A as [_ ->]. destruct B as [_ ->]. reflexivity.
  - eexists. split; [right; split; reflexivity|]. constructor. econstructor; [|repeat constructor].
    exists start_root, (AShape None None (Some ex_tc) []), None, None, ex_tc, []. split; [left; reflexivity|]. split; [right; eexists; split; [left; reflexivity|reflexivity]|].
    split; [constructor|]. eapply labelled_here_tc. reflexivity.
  - intros known fuel s. destruct fuel as [|[|[|fuel]]]; discriminate.
Qed.

(** [<1> { :1 { $7 :2 { value 3 } * } ; &$7 }]: the label is in a value expression, where it is not collected. *)
Definition nested_root : aschema :=
  mkAschema None [mkDecl 1 (AShape None None (Some (AEach None [ATc None None 1 (Some (AShape None None (Some ex_tc) [])) None None []; AInc 7] None None [])) []) false].
Theorem C67_nested_label_refuted : exists (root : aschema) (e : ase),
  distinct [] root /\ defines [] root 1 e /\ forall known fuel s, compile_ir known fuel [] root <> Ok s.
Proof.
  exists nested_root, (AShape None None (Some (AEach None [ATc None None 1 (Some (AShape None None (Some ex_tc) [])) None None []; ex_tc] None None [])) []).
  split; [repeat constructor; cbn; intuition discriminate|]. split.
  - eexists. split; [left; exists nested_root; eexists; split; [left; reflexivity|split; [left; reflexivity|split; reflexivity]]|].
    constructor. constructor. constructor; [repeat constructor|]. constructor; [|constructor]. econstructor; [|repeat constructor].
    exists nested_root. eexists. exists None, None, ex_tc, []. split; [left; reflexivity|]. split; [right; eexists; split; [left; reflexivity|reflexivity]|].
    split; [|eapply labelled_here_tc; reflexivity]. constructor. eapply within_each; [left; reflexivity|]. constructor. constructor.
  - intros known fuel s. destruct fuel as [|[|[|[|[|[|[|[|fuel]]]]]]]]; discriminate.
Qed.

(** [<1> { value 3 }] and [<1> { value 4 }]: no error, and the first is forgotten. *)
Definition twice_root : aschema := mkAschema None [mkDecl 1 (ANode [POne 3]) false; mkDecl 1 (ANode [POne 4]) false].
Theorem C67_duplicate_label_refuted : exists (root : aschema) (s : ir) (e : ase),
  (forall known, compile_ir known 1 [] root = Ok s) /\ declared [] root 1 e /\
  forall ext g i, index_of s 1 i -> exists (T : typing) n, solves_compiled ex_value ext g (compiled s) T /\ T n i = true /\
    forall T0, ~ sat ex_value ext g T0 e n.
Proof.
  exists twice_root. eexists. exists (ANode [POne 3]). split; [reflexivity|]. split; [left; exists twice_root, (mkDecl 1 (ANode [POne 3]) false); cbn; auto|].
  intros ext g i H. cbv in H. injection H as <-. exists (fun n j => match j with 0 => true | _ => Nat.eqb 4 n end), 4. split; [|split; [reflexivity|]].
  - intros n [|[|j]] e E; cbn in E; try discriminate; injection E as <-; cbn; tauto.
  - intros T0 H. cbn in H. specialize (H (POne 3) 3 (or_introl eq_refl) (or_introl eq_refl)). discriminate.
Qed.

(** [<1> { $7 :1 { &$7 } }]: an expression that includes itself through a value expression is followed for ever. *)
Definition cyclic_tc : ate := ATc (Some 7) None 1 (Some (AShape None None (Some (AInc 7)) [])) None None [].
Definition cyclic_root : aschema := mkAschema None [mkDecl 1 (AShape None None (Some cyclic_tc) []) false].
Lemma cyclic_runs known f : forall idx s, compile_se known [(7, cyclic_tc)] f (AShape None None (Some (AInc 7)) []) idx s = OutOfFuel.
Proof.
  induction f as [f IH] using (well_founded_induction lt_wf). intros idx s. destruct f as [|[|[|[|f]]]]; try reflexivity.
  cbn [compile_se te2rbe mem existsb lookup Nat.eqb cyclic_tc value_cond sem_acts_to_conds forallb map bind cnv_min cnv_max new_index].
  rewrite IH by lia. reflexivity.
Qed.
Lemma cyclic_top known f idx s : compile_se known [(7, cyclic_tc)] f (AShape None None (Some cyclic_tc) []) idx s = OutOfFuel.
Proof.
  destruct f as [|[|[|f]]]; try reflexivity.
  cbn [compile_se te2rbe cyclic_tc value_cond sem_acts_to_conds forallb map bind cnv_min cnv_max new_index].
  pose proof (cyclic_runs known f) as H. unfold cyclic_tc in H. rewrite H. reflexivity.
Qed.
Theorem C67_cyclic_inclusion_refuted : exists root : aschema, distinct [] root /\ forall known fuel, compile_ir known fuel [] root = OutOfFuel.
Proof.
  exists cyclic_root. split; [repeat constructor; cbn; intuition discriminate|]. intros known fuel. unfold compile_ir.
  change ((do s <- Ok (mkIr [(1, 0)] [EEmpty] []);
          do lab <- Ok [(7, cyclic_tc)];
          do s <- Ok s; do s <- Ok s; do i <- Ok 0; do (e, s) <- compile_se known lab fuel (AShape None None (Some cyclic_tc) []) i s; Ok (replace_shape i e s)) = OutOfFuel).
  cbn [bind].
  rewrite cyclic_top. reflexivity.
Qed.

(** [<1> { ( :1 . | :2 . ) %a%{...%} }]: the actions of groups are left out, and those of a choice are not even looked up. *)
Definition acted (acts : list nat) : aschema :=
  mkAschema None [mkDecl 1 (AShape None None (Some (AOne None [ATc None None 1 None None None []; ATc None None 2 None None None []] None None acts)) []) false].
Theorem C67_group_actions_refuted : exists acts, acts <> [] /\ forall known fuel,
  (forall a, In a acts -> known a = false) -> compile_ir known fuel [] (acted acts) = compile_ir known fuel [] (acted []) /\
  (fuel = 9 -> exists s, compile_ir known fuel [] (acted acts) = Ok s).
Proof.
  exists [1]. split; [discriminate|]. intros known fuel _. split; [destruct fuel as [|[|[|[|fuel]]]]; reflexivity|]. intros ->. eexists. reflexivity.
Qed.
Print Assumptions C67_start_inclusion_refuted.
Print Assumptions C67_nested_label_refuted.
Print Assumptions C67_duplicate_label_refuted.
Print Assumptions C67_cyclic_inclusion_refuted.
Print Assumptions C67_group_actions_refuted.
