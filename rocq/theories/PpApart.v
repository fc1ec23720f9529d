(** The tokens of a printed schema do not run into each other. *)
From Coq Require Import String List ZArith Bool Lia.
From Verif Require Import PsModel PsSpec PsFinal PpModel PpSpec PpLemmas.
Import ListNotations.
Local Open Scope string_scope.
Local Open Scope list_scope.

Definition next (b : before) (p : piece) : option before :=
  match p with
  | White => Some BNothing
  | Tok t =>
      match b with
      | BNothing => Some (if open_end t then BOpen_ else BNothing)
      | BOpen_ =>
          if negb (letter t) && match t with TP PDot => false | _ => true end
          then Some (match t with TP PPercent => BPercent | _ => if open_end t then BOpen_ else BNothing end)
          else None
      | BPercent => if negb (letter t) then Some (if open_end t then BOpen_ else BNothing) else None
      end
  end.
Fixpoint run (b : before) (d : doc) : option before :=
  match d with [] => Some b | p :: d => obind (next b p) (fun b => run b d) end.

Lemma run_app b d e : run b (d ++ e) = obind (run b d) (fun b => run b e).
Proof. revert b. induction d as [|p d IH]; intros b; [reflexivity|]. cbn. destruct (next b p); cbn; [apply IH|reflexivity]. Qed.
Lemma run_apart d : forall (b : before) (w : bool), (exists c : before, run (if w then BNothing else b) d = Some c) -> apart b (lay w d) = true.
Proof.
  induction d as [|[|t] d IH]; intros b w [c H]; [reflexivity| |].
  - cbn in *. apply IH. exists c. exact H.
  - cbn [lay apart]. destruct (if w then BNothing else b) eqn:Eb; cbn [run next] in H.
    + apply IH. exists c. exact H.
    + destruct (negb (letter t) && _) eqn:E; [|discriminate H]. cbn [andb]. apply IH. exists c. exact H.
    + destruct (negb (letter t)) eqn:E; [|discriminate H]. cbn [andb]. apply IH. exists c. exact H.
Qed.

(** Fine after white space; fine anywhere; fine after white space and ending so. *)
Definition fine0 (d : doc) : Prop := exists c, run BNothing d = Some c.
Definition free (d : doc) : Prop := forall b, exists c, run b d = Some c.
Definition shut (d : doc) : Prop := run BNothing d = Some BNothing.

Lemma fine_free d e : fine0 d -> free e -> fine0 (d ++ e).
Proof. intros [c H] F. destruct (F c) as [c' H']. exists c'. rewrite run_app, H. exact H'. Qed.
Lemma free_free d e : free d -> free e -> free (d ++ e).
Proof. intros H F b. destruct (H b) as [c E]. destruct (F c) as [c' E']. exists c'. rewrite run_app, E. exact E'. Qed.
Lemma shut_fine d e : shut d -> fine0 e -> fine0 (d ++ e).
Proof. intros H [c E]. exists c. rewrite run_app, H. exact E. Qed.
Lemma shut_shut d e : shut d -> shut e -> shut (d ++ e).
Proof. intros H E. unfold shut. rewrite run_app, H. exact E. Qed.
Lemma white_free d : fine0 d -> free (White :: d).
Proof. intros [c H] b. exists c. exact H. Qed.
Lemma free_nil : free []. Proof. intros b. exists b. reflexivity. Qed.
Lemma shut_nil : shut []. Proof. reflexivity. Qed.
Lemma free_fine d : free d -> fine0 d. Proof. intros H. exact (H BNothing). Qed.
Lemma shut_is_fine d : shut d -> fine0 d. Proof. intros H. exists BNothing. exact H. Qed.
Lemma fine_one t : fine0 [Tok t]. Proof. eexists. reflexivity. Qed.
Lemma fine_shut d : fine0 d -> shut (d ++ [White]).
Proof. intros [c H]. unfold shut. rewrite run_app, H. reflexivity. Qed.
(** Separators that end in white space and begin with a sign. *)
Lemma fine_inter sep : (forall b, run b sep = Some BNothing) -> forall ds, Forall fine0 ds -> fine0 (intersperse sep ds).
Proof.
  intros Hs ds F. induction F as [|d ds [c H] F IH]; [exists BNothing; reflexivity|]. cbn [intersperse].
  destruct ds; [exists c; exact H|]. destruct IH as [c' IH]. exists c'. rewrite run_app, H. cbn [obind].
  rewrite run_app, Hs. exact IH.
Qed.
Lemma run_white b : run b [White] = Some BNothing. Proof. reflexivity. Qed.

(** * The parts of a schema *)

Section Printing.
Variable qualify : nat -> option (string * option nat).
Variable type_iri : nat.
Variable lit_prints : nat -> bool.
Variable print_values : nat -> option nat.
Variable expand : nat -> option nat -> nat.
Variable rebase : nat -> nat -> option nat.
Variable deref_values : option nat -> option prefixes -> nat -> option nat.
Variable deref_lit : option nat -> option prefixes -> nat -> option nat.
Variable base : option nat.
Variable pm : option prefixes.
Notation se_fine := (se_fine qualify type_iri lit_prints print_values expand rebase deref_values deref_lit base pm).
Notation te_fine := (te_fine qualify type_iri lit_prints print_values expand rebase deref_values deref_lit base pm).
Notation pp_shape_expr := (pp_shape_expr qualify type_iri lit_prints print_values).
Notation pp_triple_expr := (pp_triple_expr qualify type_iri lit_prints print_values).

Definition all_of (P : doc -> Prop) (o : option doc) : Prop := forall d, o = Some d -> P d.
Lemma of_join (P P1 P2 : doc -> Prop) a b : (forall x y, P1 x -> P2 y -> P (x ++ y)) ->
  all_of P1 a -> all_of P2 b -> all_of P (join a b).
Proof.
  intros H Ha Hb d E. destruct a as [x|]; [|discriminate E]. destruct b as [y|]; [|discriminate E].
  injection E as <-. apply H; [apply Ha|apply Hb]; reflexivity.
Qed.
Lemma of_some (P : doc -> Prop) d : P d -> all_of P (Some d).
Proof. intros H d' E. injection E as <-. exact H. Qed.
Lemma of_weaken (P P' : doc -> Prop) o : (forall d, P d -> P' d) -> all_of P o -> all_of P' o.
Proof. intros H Ho d E. apply H, Ho, E. Qed.
Lemma of_all (P : doc -> Prop) l ds : Forall (all_of P) l -> all_some l = Some ds -> Forall P ds.
Proof.
  intros F. revert ds. induction F as [|o l Ho F IH]; intros ds E; [injection E as <-; constructor|].
  cbn in E. destruct o as [x|]; [|discriminate E]. cbn in E. destruct (all_some l) as [xs|]; [|discriminate E].
  injection E as <-. constructor; [apply Ho; reflexivity|apply IH; reflexivity].
Qed.
Lemma of_opt (P : doc -> Prop) {A} (o : option A) f : P [] -> (forall x, o = Some x -> all_of P (f x)) -> all_of P (opt_pp o f).
Proof. intros H0 H. destruct o; cbn; [apply H; reflexivity|apply of_some, H0]. Qed.

Lemma annots_free an : all_of free (opt_pp an (pp_annotations qualify type_iri lit_prints)).
Proof.
  apply of_opt; [apply free_nil|]. intros l _ d E. unfold pp_annotations in E.
  destruct (all_some _) as [ds|] eqn:Ed; [|discriminate E]. injection E as <-. apply white_free, fine_inter; [exact run_white|].
  apply of_all with (2 := Ed). apply Forall_forall. intros o Ho. apply in_map_iff in Ho. destruct Ho as ([p v] & <- & _).
  unfold pp_annotation. apply of_join with (P1 := shut) (P2 := fine0); [exact shut_fine|apply of_some; reflexivity|].
  cbn [snd]. destruct v as [r|x]; cbn; [apply of_some, fine_one|]. destruct (lit_prints x); [apply of_some, fine_one|].
  intros d E. discriminate E.
Qed.
Lemma action_fine a : fine0 (pp_action qualify type_iri a).
Proof.
  destruct a as [r c]. unfold fine0, pp_action. cbn [fst snd run next obind open_end].
  destruct (open_end (pp_iri_ref qualify type_iri r)); destruct c; eexists; reflexivity.
Qed.
Lemma actions_fine l : all_of shut (pp_actions qualify type_iri l).
Proof.
  apply of_some, fine_shut, fine_inter; [exact run_white|]. apply Forall_forall. intros o Ho. apply in_map_iff in Ho.
  destruct Ho as (a & <- & _). apply action_fine.
Qed.
Lemma facet_fine f : fine0 (pp_xsfacet f).
Proof. destruct f as [[]| |[]|[]]; eexists; reflexivity. Qed.
Lemma facets_free fs : all_of free (opt_pp fs pp_xsfacets).
Proof.
  apply of_opt; [apply free_nil|]. intros l _. apply of_some, white_free, fine_inter; [exact run_white|].
  apply Forall_forall. intros o Ho. apply in_map_iff in Ho. destruct Ho as (f & <- & _). apply facet_fine.
Qed.
Lemma node_apart c : node_fine qualify type_iri print_values expand rebase deref_values base pm c ->
  all_of fine0 (pp_node_constraint qualify type_iri print_values c).
Proof.
  destruct c as [k d v fs]. intros H. cbn [pp_node_constraint].
  assert (V : all_of free (join (opt_pp v (pp_value_set print_values)) (opt_pp fs pp_xsfacets))).
  { apply of_join with (P1 := free) (P2 := free); [exact free_free| |apply facets_free].
    apply of_opt; [apply free_nil|]. intros x _. unfold pp_value_set. destruct (print_values x); [|intros y E; discriminate E].
    apply of_some, white_free, fine_one. }
  destruct k as [k|]; destruct d as [d|].
  - destruct H.
  - apply of_join with (P1 := fine0) (P2 := free); [exact fine_free|apply of_some, fine_one|].
    apply of_join with (P1 := free) (P2 := free); [exact free_free|apply of_some, free_nil|exact V].
  - apply of_join with (P1 := shut) (P2 := fine0); [exact shut_fine|apply of_some, shut_nil|].
    apply of_join with (P1 := fine0) (P2 := free); [exact fine_free|apply of_some, fine_one|exact V].
  - apply of_join with (P1 := shut) (P2 := fine0); [exact shut_fine|apply of_some, shut_nil|].
    apply of_join with (P1 := shut) (P2 := fine0); [exact shut_fine|apply of_some, shut_nil|].
    apply of_weaken with (2 := V), free_fine.
Qed.

Lemma list_apart w l : Forall (fun e => all_of fine0 (pp_shape_expr e)) l ->
  all_of fine0 (obind (all_some (List.map pp_shape_expr l))
    (fun ds => Some (intersperse [White; Tok (TWord w); White] ds))).
Proof.
  intros F d E. destruct (all_some _) as [ds|] eqn:Ed; [|discriminate E]. injection E as <-.
  apply fine_inter; [reflexivity|]. apply of_all with (2 := Ed). apply Forall_forall. intros o Ho.
  apply in_map_iff in Ho. destruct Ho as (e & <- & He). rewrite Forall_forall in F. exact (F e He).
Qed.
Lemma room_list inl n l : Forall (fun e => forall inl, se_fine inl e -> roomy e -> all_of fine0 (pp_shape_expr e)) l ->
  (fix all l := match l with [] => True | e :: l => (rank e <= n /\ se_fine inl e) /\ all l end) l ->
  (fix all l := match l with [] => True | e :: l => roomy e /\ all l end) l ->
  Forall (fun e => all_of fine0 (pp_shape_expr e)) l.
Proof.
  intros F. induction F as [|e l He F IH]; intros H R; constructor.
  - destruct H as [[_ H] _], R as [R _]. exact (He inl H R).
  - apply IH; [apply H|apply R].
Qed.

Theorem trees_apart : (forall e inl, se_fine inl e -> roomy e -> all_of fine0 (pp_shape_expr e))
  /\ (forall t, te_fine t -> roomy_te t -> all_of fine0 (pp_triple_expr t)).
Proof.
  apply trees_ind.
  - intros l IH inl [_ H] R. exact (list_apart "OR" l (room_list inl 2 l IH H R)).
  - intros l IH inl [_ H] R. exact (list_apart "AND" l (room_list inl 1 l IH H R)).
  - intros e IH inl [_ H] R. cbn [PpModel.pp_shape_expr].
    apply of_join with (P1 := shut) (P2 := fine0); [exact shut_fine|apply of_some; reflexivity|exact (IH inl H R)].
  - intros c inl H _. exact (node_apart c H).
  - intros cl ex t ac an ext IH inl (Hc & He & Ht & -> & Ha & Hi & Hx) [Hr Rt].
    change (all_of fine0 (
      join (Some match cl with Some true => [Tok (TWord "CLOSED"); White] | _ => [] end)
      (join (opt_pp ex (pp_extra qualify type_iri))
      (join (opt_pp ext (pp_extends qualify type_iri))
      (join (Some [Tok (TP PLBrace); White])
      (join (match t with Some t => pp_triple_expr t | None => Some [] end)
      (join (Some [White; Tok (TP PRBrace)])
      (opt_pp an (pp_annotations qualify type_iri lit_prints))))))))).
    apply of_join with (P1 := shut) (P2 := fine0); [exact shut_fine|apply of_some; destruct cl as [[]|]; reflexivity|].
    assert (B : all_of free (join (Some [Tok (TP PLBrace); White])
      (join (match t with Some t => pp_triple_expr t | None => Some [] end)
      (join (Some [White; Tok (TP PRBrace)])
      (opt_pp an (pp_annotations qualify type_iri lit_prints)))))).
    { assert (T : all_of fine0 (join (match t with Some t => pp_triple_expr t | None => Some [] end)
        (join (Some [White; Tok (TP PRBrace)]) (opt_pp an (pp_annotations qualify type_iri lit_prints))))).
      { apply of_join with (P1 := fine0) (P2 := free); [exact fine_free| |].
        - destruct t as [t|]; [exact (IH Ht Rt)|apply of_some, shut_is_fine, shut_nil].
        - apply of_join with (P1 := free) (P2 := free); [exact free_free| |apply annots_free].
          apply of_some, white_free, fine_one. }
      apply of_join with (P1 := fun d => d = [Tok (TP PLBrace); White]) (P2 := fine0); [|apply of_some; reflexivity|exact T].
      intros x y -> [c Hy] b. exists c. destruct b; exact Hy. }
    assert (X : ext <> None -> all_of shut (opt_pp ext (pp_extends qualify type_iri))).
    { intros _. apply of_opt; [apply shut_nil|]. intros ls _. apply of_some.
      change (shut ([Tok (TWord "EXTENDS"); White] ++
        (intersperse [White] (List.map (fun l => [Tok (pp_reference qualify type_iri l)]) ls) ++ [White]))).
      apply shut_shut; [reflexivity|]. apply fine_shut, fine_inter; [exact run_white|].
      apply Forall_forall. intros o Ho. apply in_map_iff in Ho. destruct Ho as (l & <- & _). apply fine_one. }
    destruct Hr as [->| ->].
    + apply of_join with (P1 := shut) (P2 := fine0); [exact shut_fine|apply of_some, shut_nil|].
      apply of_join with (P1 := shut) (P2 := free); [intros x y Hs Hf; apply shut_fine; [exact Hs|apply free_fine, Hf]| |exact B].
      destruct ext; [apply X; discriminate|apply of_some, shut_nil].
    + apply of_join with (P1 := fine0) (P2 := free); [exact fine_free| |].
      * apply of_opt; [apply shut_is_fine, shut_nil|]. intros ps _. apply of_some. apply shut_fine; [reflexivity|].
        apply fine_inter; [exact run_white|]. apply Forall_forall. intros o Ho. apply in_map_iff in Ho.
        destruct Ho as (p & <- & _). apply fine_one.
      * apply of_join with (P1 := free) (P2 := free); [exact free_free|apply of_some, free_nil|exact B].
  - intros inl [].
  - intros l inl _ _. apply of_some, fine_one.
  - intros id l mn mx ac an IH (_ & _ & _ & _ & _ & _ & H) R. intros d E. cbn [PpModel.pp_triple_expr] in E.
    change (obind (all_some (List.map pp_triple_expr l)) (fun ds => Some (intersperse [Tok (TP PSemi); White] ds)) = Some d) in E.
    destruct (all_some _) as [ds|] eqn:Ed; [|discriminate E]. injection E as <-.
    apply fine_inter; [intros []; reflexivity|]. apply of_all with (2 := Ed). cbn [roomy_te] in R. clear Ed ds.
    revert H R. induction IH as [|t l Ht F IH]; intros H R; constructor.
    + apply Ht; [apply H|apply R].
    + apply IH; [apply H|apply R].
  - intros id l mn mx ac an _ [].
  - intros id ng iv p v mn mx ac an IH (_ & Hn & Hi & _ & Hv & Hc & Hac & _ & Hor) [Rv Ra].
    change (all_of fine0 (join (Some (pp_flag ng PBang ++ pp_flag iv PCaret ++ [Tok (pp_iri_ref qualify type_iri p); White]))
      (join (match v with Some e => pp_shape_expr e | None => Some [Tok (TP PDot)] end)
      (join (Some (pp_cardinality mn mx))
      (join (opt_pp ac (pp_actions qualify type_iri)) (opt_pp an (pp_annotations qualify type_iri lit_prints))))))).
    apply of_join with (P1 := shut) (P2 := fine0); [exact shut_fine| |].
    { apply of_some. destruct ng as [[]|]; destruct iv as [[]|]; reflexivity. }
    assert (V : all_of fine0 (match v with Some e => pp_shape_expr e | None => Some [Tok (TP PDot)] end)).
    { destruct v as [e|]; [exact (IH true (proj1 Hv) Rv)|apply of_some, fine_one]. }
    assert (Cd : free (pp_cardinality mn mx) /\ shut (pp_cardinality mn mx)).
    { destruct Hc as [[-> ->]|[[-> ->]|[[-> ->]|[-> ->]]]]; (split; [intros b; destruct b; eexists; reflexivity|reflexivity]). }
    destruct Ra as [->|[Hm|Hv0]].
    + apply of_join with (P1 := fine0) (P2 := free); [exact fine_free|exact V|].
      apply of_join with (P1 := free) (P2 := free); [exact free_free|apply of_some, Cd|].
      apply of_join with (P1 := free) (P2 := free); [exact free_free|apply of_some, free_nil|apply annots_free].
    + assert (Cs : forall b, run b (pp_cardinality mn mx) = Some BNothing).
      { destruct Hc as [[-> ->]|[[-> ->]|[[-> ->]|[-> ->]]]]; [contradiction|reflexivity|reflexivity|reflexivity]. }
      apply of_join with (P1 := fine0) (P2 := free); [exact fine_free|exact V|].
      apply of_join with (P1 := fun d => d = pp_cardinality mn mx) (P2 := fine0); [|apply of_some; reflexivity|].
      * intros x y -> [c Hy] b. exists c. rewrite run_app, Cs. exact Hy.
      * apply of_join with (P1 := shut) (P2 := free);
          [intros x y Hs Hf; apply shut_fine; [exact Hs|apply free_fine, Hf]| |apply annots_free].
        apply of_opt; [apply shut_nil|]. intros l _. apply actions_fine.
    + subst v. apply of_join with (P1 := shut) (P2 := fine0); [exact shut_fine|apply of_some; reflexivity|].
      apply of_join with (P1 := shut) (P2 := fine0); [exact shut_fine|apply of_some, Cd|].
      apply of_join with (P1 := shut) (P2 := free);
        [intros x y Hs Hf; apply shut_fine; [exact Hs|apply free_fine, Hf]| |apply annots_free].
      apply of_opt; [apply shut_nil|]. intros l _. apply actions_fine.
  - intros l [].
Qed.
End Printing.

Section Schema.
Variable qualify : nat -> option (string * option nat).
Variable type_iri : nat.
Variable lit_prints : nat -> bool.
Variable print_values : nat -> option nat.
Variable expand : nat -> option nat -> nat.
Variable rebase : nat -> nat -> option nat.
Variable deref_values : option nat -> option prefixes -> nat -> option nat.
Variable deref_lit : option nat -> option prefixes -> nat -> option nat.

Lemma singles {A} (f : A -> doc) l : (forall x, fine0 (f x)) -> Forall fine0 (List.map f l).
Proof. intros H. induction l; constructor; auto. Qed.

Theorem schema_apart s : printable qualify type_iri lit_prints print_values expand rebase deref_values deref_lit s ->
  roomy_schema s -> forall i, print qualify type_iri lit_prints print_values s = Some i -> apart BNothing i = true.
Proof.
  intros F R i E. unfold print in E. destruct (pp_schema _ _ _ _ s) as [d|] eqn:Ed; [|discriminate E]. injection E as <-.
  apply run_apart. cbn. revert d Ed. destruct F as (F1 & F2 & F3 & F4 & F5). destruct R as [R4 R5].
  change (all_of fine0 (pp_schema qualify type_iri lit_prints print_values s)). unfold pp_schema.
  apply of_join with (P1 := shut) (P2 := fine0); [exact shut_fine| |].
  { apply of_opt; [apply shut_nil|]. intros l _. apply of_some, fine_shut, fine_inter; [exact run_white|].
    apply singles. intros x. eexists. reflexivity. }
  apply of_join with (P1 := shut) (P2 := fine0); [exact shut_fine| |].
  { apply of_opt; [apply shut_nil|]. intros l _. apply of_some. reflexivity. }
  apply of_join with (P1 := shut) (P2 := fine0); [exact shut_fine| |].
  { apply of_opt; [apply shut_nil|]. intros l _. unfold pp_imports. destruct l as [|r l]; [apply of_some, shut_nil|].
    apply of_some, fine_shut, fine_inter; [exact run_white|]. apply (singles (fun r => [_; _; _])). intros x. eexists. reflexivity. }
  apply of_join with (P1 := shut) (P2 := fine0); [exact shut_fine| |].
  { apply of_opt; [apply shut_nil|]. intros l _. apply actions_fine. }
  apply of_join with (P1 := shut) (P2 := fine0); [exact shut_fine| |].
  { apply of_opt; [apply shut_nil|]. intros e He. rewrite He in F4, R4. unfold pp_start.
    apply of_join with (P1 := shut) (P2 := shut); [exact shut_shut|apply of_some; reflexivity|].
    apply of_join with (P1 := fine0) (P2 := fun d => d = [White]); [intros x y Hx ->; apply fine_shut, Hx| |apply of_some; reflexivity].
    exact (proj1 (trees_apart _ _ _ _ _ _ _ _ _ _) e true F4 R4). }
  apply of_opt; [apply shut_is_fine, shut_nil|]. intros l Hl. rewrite Hl in F5, R5. destruct F5 as [_ F5].
  intros d E. unfold pp_shape_decls in E. destruct (all_some _) as [ds|] eqn:Ed; [|discriminate E]. injection E as <-.
  apply shut_is_fine, fine_shut, fine_inter; [exact run_white|]. apply of_all with (2 := Ed). clear Ed Hl ds.
  induction F5 as [|[[ab lb] e] l (_ & _ & He) F5 IH]; [constructor|]. inversion R5 as [|? ? Re R5']; subst.
  constructor; [|exact (IH R5')]. unfold pp_shape_decl.
  apply of_join with (P1 := shut) (P2 := fine0); [exact shut_fine|apply of_some; reflexivity|].
  destruct He as [->|He]; [apply of_some, fine_one|]. exact (proj1 (trees_apart _ _ _ _ _ _ _ _ _ _) e false He Re).
Qed.
End Schema.
