(** Importing schemas (C68). *)
From Coq Require Import List Arith Bool ZArith Lia Permutation.
Import ListNotations.
From Verif Require Import RbeModel RbeSpec PendingModel TableModel TableSpec GraphModel GraphSpec ProveModel ProveSpec EngineModel EngineSpec EngineProps
  CompModel CompSpec CompLemmas CompMeaning CompDecide CompSchema CompTyping CompFragment CompProps ImpModel ImpSpec ImpLemmas.

Section Props.
  Variable registry : list (list decl).
  Variable docs : nat -> option doc.

  (** Every document that is imported, directly or not, is visited once, and no other; its schema is collected once. *)
  Theorem C68_imports (fuel : nat) (root : doc) (visited : list nat) (asts : list (nat * aschema)) :
    collect_imports registry docs fuel root ([], []) = Ok (visited, asts) ->
    NoDup visited /\ (forall i, In i visited <-> imports docs root i) /\ Permutation (map fst asts) visited /\
    (forall i a, In (i, a) asts -> exists d, docs i = Some d /\ a = rewrite_ast registry (doc_schema d)).
  Proof.
    intro E. destruct (collect_all registry docs fuel root visited asts E) as (A & B & C & D & _). auto.
  Qed.

  (** The search ends, also when documents import each other; it succeeds if all the documents can be had, and
      fails only if one of them cannot. *)
  Theorem C68_ends (root : doc) : finitely_many docs root ->
    exists enough result, result <> OutOfFuel /\ (forall fuel, enough <= fuel -> collect_imports registry docs fuel root ([], []) = result) /\
      ((exists st, result = Ok st) <-> available docs root) /\ (result = Err <-> ~ available docs root).
  Proof.
    intros (all & AL). set (N := S (left_over all [])). pose proof (collect_ends registry docs all (imports docs root) AL (imports_further docs root) N root ([], [])) as X.
    assert (NF : collect_imports registry docs N root ([], []) <> OutOfFuel) by (apply X; [intros j; apply imports_direct|unfold N; cbn; lia]). clear X.
    exists N, (collect_imports registry docs N root ([], [])). split; [exact NF|]. split.
    - intros fuel LE. replace fuel with ((fuel - N) + N) by lia. apply (collect_enough registry docs N (fuel - N) root ([], []) NF).
    - destruct (collect_imports registry docs N root ([], [])) as [[v a]| |] eqn:E; [| |destruct (NF eq_refl)].
      + destruct (collect_all registry docs N root v a E) as (_ & _ & _ & _ & AV). split; split; auto; [intros _; eauto|discriminate|intro H; destruct (H AV)].
      + pose proof (broken_unavailable docs root (collect_err registry docs N root _ E)) as B. split; split; auto; [intros (st & H); discriminate|intro H; destruct (B H)].
  Qed.

  (** A declaration keeps its label and its definition; only EXTERNAL definitions are replaced, by the first that a
      resolver supplies. *)
  Theorem C68_external (a : aschema) :
    a_start (rewrite_ast registry a) = a_start a /\
    Forall2 (fun d d' => d_id d' = d_id d /\ d_abstract d' = d_abstract d /\ (d_expr d <> AExternal -> d_expr d' = d_expr d) /\
                         (d_expr d = AExternal -> forall e, d_expr d' = e /\ e <> AExternal <-> supplied registry (d_id d) e))
            (a_shapes a) (a_shapes (rewrite_ast registry a)).
  Proof.
    rewrite rewrite_ast_map. cbn [a_start a_shapes]. split; [reflexivity|]. induction (a_shapes a) as [|d l IH]; constructor; [|exact IH].
    destruct (rewrite_all_keeps registry d) as [A B]. split; [exact A|]. split; [exact B|]. split; [intro N; rewrite rewrite_all_own by exact N; reflexivity|].
    intros X e. exact (rewrite_all_external registry d e X).
  Qed.

  Section Meaning.
    Variable known : nat -> bool.
    Variable fuel : nat.
    Variable root : doc.
    Variable s : ir.
    Variable visited : list nat.
    Variable all : list aschema.
    Let top := rewrite_ast registry (doc_schema root).
    Hypothesis OK : compile_doc registry docs known fuel root = Ok (s, visited).
    Hypothesis ALL : the_schemas docs (rewrite_ast registry) root all.
    Hypothesis CONS : consistent all top.
    Hypothesis UNA : unambiguous all top.

    Lemma compiled_from : exists asts, compile_ir known fuel asts top = Ok s /\ forall a, In a (asts ++ [top]) <-> In a (all ++ [top]).
    Proof.
      unfold compile_doc in OK. destruct (collect_imports registry docs fuel root ([], [])) as [[v asts]| |] eqn:E; try discriminate. cbn [bind] in OK.
      fold top in OK. destruct (compile_ir known fuel (map snd asts) top) as [s'| |] eqn:C; try discriminate. injection OK as -> _.
      exists (map snd asts). split; [exact C|]. destruct (collect_all registry docs fuel root v asts E) as (_ & P & IN & CO & _).
      intro a. pose proof (ALL a) as AA. fold top in AA. rewrite AA, in_app_iff. cbn [In]. split.
      - intros [H|[<-|[]]]; [left|right; reflexivity]. apply in_map_iff in H. destruct H as ([i b] & <- & H). destruct (CO i b H) as (d & A & ->).
        exists i, d. split; [|split; [exact A|reflexivity]]. apply IN. apply (Permutation_in _ P). apply (in_map fst) in H. exact H.
      - intros [(i & d & I & A & ->)| ->]; [left|right; left; reflexivity]. apply IN in I. apply (Permutation_in _ (Permutation_sym P)) in I.
        apply in_map_iff in I. destruct I as ([j b] & <- & I). destruct (CO j b I) as (d' & A' & ->). cbn [fst] in A.
        assert (d' = d) as -> by congruence. exact (in_map snd _ _ I).
    Qed.

    Variable eval : nat -> nat -> bool.
    Variable ext : nat -> bool.
    Variable g : rdf.

    (** The compiled schema means what the imported schemas mean together; the order in which they are imported
        does not matter, nor that one is imported on several ways. *)
    Theorem C68_solutions (T : typing) :
      (solves eval ext g all top T <->
       exists T' : typing, (forall n l i, index_of s l i -> T n l = T' n i) /\ solves_compiled eval ext g (compiled s) T').
    Proof.
      destruct compiled_from as (asts & C & S). rewrite <- (C67_solutions known fuel asts top s eval ext g T C (same_consistent asts all top S CONS) (same_unambiguous asts all top S UNA)).
      split; intros H l e n D; apply H; [exact (same_defines asts all top S l e D)|]. apply (same_defines all asts top); [intro a; symmetry; apply S|exact D].
    Qed.
    Theorem C68_greatest_partial (n l i : nat) : all_positive all top -> index_of s l i ->
      (conforms eval (fun n _ => ext n) (shape_holds eval g) (compiled s) n i <-> has_shape eval ext g all top n l).
    Proof.
      intros P I. destruct compiled_from as (asts & C & S).
      rewrite (C67_greatest_partial known fuel asts top s eval ext g n l i C (same_consistent asts all top S CONS) (same_unambiguous asts all top S UNA) (same_positive asts all top S P) I).
      split; [exact (same_has asts all top S eval ext g n l)|exact (same_has all asts top (fun a => iff_sym (S a)) eval ext g n l)].
    Qed.
    Theorem C68_validates_partial (default_pred : nat) (check_extends : nat -> nat -> shape -> (nat -> bool) -> bool)
        (ord : nat -> list nat -> list nat) (steps : nat) (pending : list nat) (r : list (nat * bool)) (st : state) (n l i : nat) (b : bool) :
      all_in_fragment all top -> orders ord -> NoDup g -> index_of s l i ->
      engine_run eval (fun n _ => ext n) default_pred check_extends (compiled s) g ord steps pending fresh = (Some r, st) -> In (key n i, b) r ->
      (b = true <-> has_shape eval ext g all top n l).
    Proof.
      intros F O NG I R IR. destruct compiled_from as (asts & C & S).
      rewrite (C67_validates_partial known fuel asts top s eval ext g default_pred check_extends ord steps pending r st n l i b C
                 (same_consistent asts all top S CONS) (same_unambiguous asts all top S UNA) (same_fragment asts all top S F) O NG I R IR).
      split; [exact (same_has asts all top S eval ext g n l)|exact (same_has all asts top (fun a => iff_sym (S a)) eval ext g n l)].
    Qed.
  End Meaning.

  (** Two schemas that differ in how they import the same documents mean the same. *)
  Theorem C68_same_imports (known : nat -> bool) (fuel1 fuel2 : nat) (root1 root2 : doc) (s1 s2 : ir) (v1 v2 : list nat) (all : list aschema)
      (eval : nat -> nat -> bool) (ext : nat -> bool) (g : rdf) (T : typing) :
    compile_doc registry docs known fuel1 root1 = Ok (s1, v1) -> compile_doc registry docs known fuel2 root2 = Ok (s2, v2) ->
    doc_schema root1 = doc_schema root2 -> (forall i, imports docs root1 i <-> imports docs root2 i) ->
    the_schemas docs (rewrite_ast registry) root1 all ->
    consistent all (rewrite_ast registry (doc_schema root1)) -> unambiguous all (rewrite_ast registry (doc_schema root1)) ->
    Permutation v1 v2 /\
    ((exists T' : typing, (forall n l i, index_of s1 l i -> T n l = T' n i) /\ solves_compiled eval ext g (compiled s1) T') <->
     (exists T' : typing, (forall n l i, index_of s2 l i -> T n l = T' n i) /\ solves_compiled eval ext g (compiled s2) T')).
  Proof.
    intros C1 C2 E I A CO UN.
    assert (A2 : the_schemas docs (rewrite_ast registry) root2 all).
    { intro a. rewrite <- E. rewrite (A a). unfold imported_schema. split; (intros [(i & d & X & Y)|X]; [left; exists i, d; split; [apply I; exact X|exact Y]|right; exact X]). }
    split.
    - assert (V : forall f r s v, compile_doc registry docs known f r = Ok (s, v) -> NoDup v /\ forall i, In i v <-> imports docs r i).
      { intros f r s v C. unfold compile_doc in C. destruct (collect_imports registry docs f r ([], [])) as [[w asts]| |] eqn:EE; try discriminate. cbn [bind] in C.
        destruct (compile_ir known f (map snd asts) (rewrite_ast registry (doc_schema r))) as [s'| |]; try discriminate. injection C as _ <-.
        destruct (C68_imports f r w asts EE) as (X & Y & _). auto. }
      destruct (V _ _ _ _ C1) as [N1 J1]. destruct (V _ _ _ _ C2) as [N2 J2]. apply NoDup_Permutation; auto. intro i. rewrite J1, J2. apply I.
    - rewrite <- (C68_solutions known fuel1 root1 s1 v1 all C1 A CO UN eval ext g T).
      rewrite E in CO, UN |- *. rewrite <- (C68_solutions known fuel2 root2 s2 v2 all C2 A2 CO UN eval ext g T). tauto.
  Qed.
End Props.
Print Assumptions C68_imports.
Print Assumptions C68_ends.
Print Assumptions C68_external.
Print Assumptions C68_solutions.
Print Assumptions C68_greatest_partial.
Print Assumptions C68_validates_partial.
Print Assumptions C68_same_imports.

(** ** Examples *)

(** [<1> { :1 @<2> ; :2 @<3> * }] imports two documents that import each other: [<2> EXTERNAL] and [<3> { value 4 }];
    a resolver knows [<2>]. *)
Definition ex_docs (i : nat) : option doc :=
  match i with
  | 1 => Some (mkDoc (Some [2]) (mkAschema (Some (ANode [])) [mkDecl 2 AExternal false]))
  | 2 => Some (mkDoc (Some [1; 1]) (mkAschema None [mkDecl 3 (ANode [POne 4]) false]))
  | _ => None
  end.
Definition ex_registry : list (list decl) := [[mkDecl 5 (ANode []) false]; [mkDecl 2 (ANode [POne 3]) false; mkDecl 2 AExternal false]].
Definition ex_doc (order : list nat) : doc :=
  mkDoc (Some order) (mkAschema None [mkDecl 1 (AShape None None
    (Some (AEach None [ATc None None 1 (Some (ARef 2)) None None []; ATc None None 2 (Some (ARef 3)) (Some 0%Z) (Some (-1)%Z) []] None None [])) []) false]).
Definition ex_all : list aschema :=
  [mkAschema (Some (ANode [])) [mkDecl 2 (ANode [POne 3]) false]; mkAschema None [mkDecl 3 (ANode [POne 4]) false]].
Definition ex_compiled (order : list nat) : ir * list nat :=
  match compile_doc ex_registry ex_docs all_known 9 (ex_doc order) with Ok r => r | _ => (ir_new, []) end.

Lemma ex_imports order i : (forall j, In j order <-> j = 1 \/ j = 2) -> imports ex_docs (ex_doc order) i <-> i = 1 \/ i = 2.
Proof.
  intro O. split.
  - induction 1 as [i (l & A & B)|i d' j I IH ED (l & A & B)].
    + cbn in A. injection A as <-. apply O. exact B.
    + destruct IH as [-> | ->]; cbn in ED; injection ED as <-; cbn in A; injection A as <-; cbn in B; intuition.
  - intro H. constructor. exists order. split; [reflexivity|]. apply O. exact H.
Qed.
Lemma ex_not_labelled r te root : root = rewrite_ast ex_registry (doc_schema (ex_doc [1; 2])) -> ~ labelled ex_all root r te.
Proof.
  intros -> (a & e & c & x & t0 & ex & I & S & W & L). cbn in I. destruct I as [<-|[<-|[<-|[]]]].
  - destruct S as [S|(d & Id & <-)]; [injection S as <-; look|]. destruct Id as [<-|[]]. cbn in W. look.
  - destruct S as [S|(d & Id & <-)]; [discriminate|]. destruct Id as [<-|[]]. cbn in W. look.
  - destruct S as [S|(d & Id & <-)]; [discriminate|]. destruct Id as [<-|[]]. cbn in W. look.
Qed.
Example C68_met : let root := ex_doc [1; 2] in let top := rewrite_ast ex_registry (doc_schema root) in
  compile_doc ex_registry ex_docs all_known 9 root = Ok (ex_compiled [1; 2]) /\
  compile_doc ex_registry ex_docs all_known 9 (ex_doc [2; 1; 2]) = Ok (ex_compiled [2; 1; 2]) /\
  snd (ex_compiled [1; 2]) = [1; 2] /\ snd (ex_compiled [2; 1; 2]) = [2; 1] /\ finitely_many ex_docs root /\ available ex_docs root /\
  (forall i, imports ex_docs root i <-> imports ex_docs (ex_doc [2; 1; 2]) i) /\
  the_schemas ex_docs (rewrite_ast ex_registry) root ex_all /\ consistent ex_all top /\ unambiguous ex_all top /\ all_in_fragment ex_all top /\
  supplied ex_registry 2 (ANode [POne 3]) /\
  index_of (fst (ex_compiled [1; 2])) 1 2 /\
  fst (engine_run ex_value (fun _ _ => false) 0 no_extends (compiled (fst (ex_compiled [1; 2]))) [(10, 1, 3); (10, 2, 4); (11, 1, 4)] id_ord 20 [key 10 2; key 11 2] fresh)
    = Some [(key 10 2, true); (key 11 2, false)].
Proof.
  cbv zeta. assert (O12 : forall j, In j [1; 2] <-> j = 1 \/ j = 2) by (intro j; cbn; intuition).
  assert (O21 : forall j, In j [2; 1; 2] <-> j = 1 \/ j = 2) by (intro j; cbn; intuition).
  split; [vm_compute; reflexivity|]. split; [vm_compute; reflexivity|]. split; [vm_compute; reflexivity|]. split; [vm_compute; reflexivity|].
  split; [exists [1; 2]; intros i I; apply (ex_imports [1; 2] i O12) in I; cbn; intuition|].
  split; [split; [discriminate|]; intros i I; apply (ex_imports [1; 2] i O12) in I; destruct I as [-> | ->]; eexists; split; try reflexivity; discriminate|].
  split; [intro i; rewrite (ex_imports _ i O12), (ex_imports _ i O21); tauto|].
  assert (U : forall r te, ~ labelled ex_all (rewrite_ast ex_registry (doc_schema (ex_doc [1; 2]))) r te) by (intros r te; apply ex_not_labelled; reflexivity).
  split.
  { intro a. unfold imported_schema. split.
    - intro I. cbn in I. destruct I as [<-|[<-|[<-|[]]]]; [left; exists 1|left; exists 2|right; reflexivity]; eexists;
        (split; [apply (ex_imports _ _ O12); auto|split; reflexivity]).
    - intros [(i & d & I & E & ->)| ->]; [|right; right; left; reflexivity]. apply (ex_imports _ _ O12) in I. destruct I as [-> | ->]; cbn in E; injection E as <-; cbn; auto. }
  split; [apply distinct_consistent; repeat constructor; cbn; intuition discriminate|].
  split; [intros r te te' A; destruct (U r te A)|].
  split.
  { split.
    - intros a d I Id. cbn in I. destruct I as [<-|[<-|[<-|[]]]]; cbn in Id; destruct Id as [<-|[]]; reflexivity.
    - intros l e (e0 & DE & UE). cbn in DE. destruct DE as [(a & d & I & Id & <- & <-)|[-> S]]; [|discriminate].
      destruct I as [<-|[<-|[<-|[]]]]; cbn in Id; destruct Id as [<-|[]]; cbn [d_expr] in UE; look; intros x W; look; try exact Logic.I.
      split; [reflexivity|]. split; [cbn; split; [exists 1; cbn; lia|]; auto|].
      split; [left; split; [split; left; reflexivity|cbn; auto]|]. split; [left; cbn; repeat constructor; cbn; intuition discriminate|].
      split; [|discriminate]. intros k v acts H. look; (split; [reflexivity|]); (split; [left; reflexivity|]); intros p []. }
  split.
  { split; [discriminate|]. exists [[mkDecl 5 (ANode []) false]], [mkDecl 2 (ANode [POne 3]) false; mkDecl 2 AExternal false], []. split; [reflexivity|].
    split; [exists [], (mkDecl 2 (ANode [POne 3]) false), [mkDecl 2 AExternal false]; repeat split; intros b []|].
    intros b e' [<-|[]] (bf & d & af & E & I & _). destruct bf as [|x bf]; [injection E as <- _; discriminate|destruct bf; discriminate]. }
  split; [vm_compute; reflexivity|]. vm_compute. reflexivity.
Qed.

(** ** Where the full statement fails *)

(** [<1> { $7 :2 { value 3 } * }] imports a document that imports it again. The schema that is compiled is not among
    the visited ones, so it is fetched as one of its own imports; its labelled triple expressions are then found
    twice, and it is rejected. Without the repeated visit the same schemas are accepted. *)
Definition circle_root : doc := mkDoc (Some [1]) (mkAschema None [mkDecl 1 (AShape None None (Some ex_tc) []) false]).
Definition circle_other : doc := mkDoc (Some [0]) (mkAschema None []).
Definition circle_docs (i : nat) : option doc := match i with 0 => Some circle_root | 1 => Some circle_other | _ => None end.
Theorem C68_circular_refuted : exists (docs : nat -> option doc) (root other : doc),
  docs 0 = Some root /\ docs 1 = Some other /\ names root 1 /\ names other 0 /\ available docs root /\
  the_schemas docs (fun a => a) root [doc_schema other] /\
  consistent [doc_schema other] (doc_schema root) /\ unambiguous [doc_schema other] (doc_schema root) /\
  (forall known fuel r, compile_doc [] docs known fuel root <> Ok r) /\
  (exists s, compile_ir all_known 9 [doc_schema other] (doc_schema root) = Ok s).
Proof.
  exists circle_docs, circle_root, circle_other. split; [reflexivity|]. split; [reflexivity|]. split; [exists [1]; cbn; auto|]. split; [exists [0]; cbn; auto|].
  assert (I01 : forall i, imports circle_docs circle_root i <-> i = 0 \/ i = 1).
  { intro i. split.
    - induction 1 as [i (l & A & B)|i d' j I IH ED (l & A & B)]; [cbn in A; injection A as <-; cbn in B; intuition|].
      destruct IH as [-> | ->]; cbn in ED; injection ED as <-; cbn in A; injection A as <-; cbn in B; intuition.
    - assert (X : imports circle_docs circle_root 1) by (constructor; exists [1]; cbn; auto). intros [-> | ->]; [|exact X].
      apply (imports_further circle_docs circle_root 1 circle_other 0 X eq_refl). exists [0]. cbn. auto. }
  split; [split; [discriminate|]; intros i I; apply I01 in I; destruct I as [-> | ->]; eexists; split; try reflexivity; discriminate|].
  split.
  { intro a. unfold imported_schema. split.
    - intro I. cbn in I. destruct I as [<-|[<-|[]]]; [left; exists 1, circle_other; split; [apply I01; auto|auto]|right; reflexivity].
    - intros [(i & d & I & E & ->)| ->]; [|right; left; reflexivity]. apply I01 in I. destruct I as [-> | ->]; cbn in E; injection E as <-; cbn; auto. }
  split; [apply distinct_consistent; repeat constructor; cbn; intuition discriminate|]. split.
  { intros r te te' A B. assert (L : forall te, labelled [doc_schema circle_other] (doc_schema circle_root) r te -> te = ex_tc).
    { clear. intros te (a & e & c & x & t0 & ex & I & S & W & L). cbn in I. destruct I as [<-|[<-|[]]].
      - destruct S as [S|(d & [] & _)]. discriminate.
      - destruct S as [S|(d & Id & <-)]; [discriminate|]. cbn in Id. destruct Id as [<-|[]]. cbn [d_expr ex_tc] in W. unfold ex_tc in *. look; try discriminate;
          match goal with H : ATc _ _ _ _ _ _ _ = ATc _ _ _ _ _ _ _ |- _ => injection H; intros; subst end; auto. }
    rewrite (L te A), (L te' B). reflexivity. }
  split.
  { intros known fuel r H. destruct fuel as [|[|[|f]]]; discriminate H. }
  eexists. vm_compute. reflexivity.
Qed.
Print Assumptions C68_circular_refuted.
