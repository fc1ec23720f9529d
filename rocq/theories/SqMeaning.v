(* Shapes and the queries they are converted to. *)
From Coq Require Import List String Ascii Bool Arith Lia ZArith Permutation.
Import ListNotations.
From Verif Require Import SjModel CoModel CoSpec CoLemmas SqModel SqSpec SqLemmas.
Open Scope string_scope.

Section Meaning.
Context {L : lib} {T : Type}.
Variable g : T -> string -> T -> Prop.
Variable value : sexpr -> T -> Prop.
Variable pm : list (string * string).
Hypothesis ND : NoDup (List.map fst pm).
Notation matches := (matches value pm).
Notation stands := (stands_for pm).

Fixpoint all_match (l : list texpr) (ts : list (string * T)) : Prop :=
  match l with
  | [] => ts = []
  | te :: l => exists a b, Permutation ts (a ++ b) /\ matches te a /\ all_match l b
  end.
Lemma each_matches id l mn mx a x ts : matches (TEach id l mn mx a x) ts = exists parts, Permutation ts (List.concat parts) /\ within mn mx (List.length parts) /\ Forall (all_match l) parts.
Proof. reflexivity. Qed.

(* Every constraint that is required has a triple. *)
Lemma matched te : forall ts, required te -> matches te ts -> forall p ve, In (p, ve) (constraints te) -> exists i o, In (i, o) ts /\ stands p i.
Proof.
  induction te as [id l mn mx a x F|id l mn mx a x F|id neg inv p0 ve0 mn mx a x|l] using texpr_ind'; intros ts R M p ve K.
  - rewrite each_matches in M. destruct M as (parts & P & W & FA). cbn [required] in R. destruct R as [R RL]. destruct parts as [|part parts].
    { exfalso. destruct W as [W _]. cbn in W. destruct mn as [z|]; cbn in R; lia. }
    inversion FA as [|? ? AM _]; subst. cbn [constraints] in K. assert (X : exists i o, In (i, o) part /\ stands p i).
    { clear P FA W R. revert part AM. induction l as [|te l IH]; intros part AM; [destruct K|]. cbn in K, RL. destruct AM as (a1 & b & P & M & AM). inversion F as [|? ? FT FL]; subst. destruct RL as [RT RL]. apply in_app_or in K. destruct K as [K|K].
      - destruct (FT _ RT M _ _ K) as (i & o & J & ST). exists i, o. split; [|exact ST]. apply (Permutation_in _ (Permutation_sym P)), in_or_app. left. exact J.
      - destruct (IH FL RL K b AM) as (i & o & J & ST). exists i, o. split; [|exact ST]. apply (Permutation_in _ (Permutation_sym P)), in_or_app. right. exact J. }
    destruct X as (i & o & J & ST). exists i, o. split; [|exact ST]. apply (Permutation_in _ (Permutation_sym P)). cbn. apply in_or_app. left. exact J.
  - destruct R.
  - cbn [required] in R. cbn in K. destruct K as [[= <- <-]|[]]. cbn in M. destruct M as (_ & _ & (W & _) & FA). destruct ts as [|[i o] ts]; [exfalso; cbn in W; destruct mn as [z|]; cbn in R; lia|].
    inversion FA as [|? ? [ST _] _]; subst. exists i, o. split; [left; reflexivity|exact ST].
  - destruct R.
Qed.

(* The other way around. *)
Definition takes (cs : list (iriref * option sexpr)) (t : string * T) : bool :=
  existsb (fun c => match resolve_iriref pm (fst c) with Ok s => String.eqb s (fst t) | _ => false end) cs.
Lemma takes_iff cs t : takes cs t = true <-> exists p ve, In (p, ve) cs /\ stands p (fst t).
Proof.
  unfold takes. rewrite existsb_exists. split.
  - intros ((p & ve) & K & E). cbn [fst] in E. destruct (resolve_iriref pm p) as [s| |] eqn:R; try discriminate. apply String.eqb_eq in E. subst. apply (resolve_iff _ _ _ ND) in R. eauto.
  - intros (p & ve & K & ST). exists (p, ve). split; [exact K|]. cbn [fst]. apply (resolve_iff _ _ _ ND) in ST. rewrite ST. apply String.eqb_refl.
Qed.
Lemma filter_split {A} (f : A -> bool) (l : list A) : Permutation l (filter f l ++ filter (fun a => negb (f a)) l).
Proof.
  induction l as [|a l IH]; cbn; [constructor|]. destruct (f a); cbn; [constructor; exact IH|]. apply (Permutation_cons_app _ _ _ IH).
Qed.
Definition once_l (cs : list (iriref * option sexpr)) : Prop :=
  forall l1 c l2 c' l3 i, cs = (l1 ++ c :: l2 ++ c' :: l3)%list -> stands (fst c) i -> ~ stands (fst c') i.
Lemma once_app cs cs' : once_l (cs ++ cs') -> once_l cs /\ once_l cs' /\ forall c c' i, In c cs -> In c' cs' -> stands (fst c) i -> ~ stands (fst c') i.
Proof.
  intro O. split; [|split].
  - intros l1 c l2 c' l3 i ->. apply (O l1 c l2 c' (l3 ++ cs')%list). rewrite <- !app_assoc. cbn. rewrite <- app_assoc. reflexivity.
  - intros l1 c l2 c' l3 i ->. apply (O (cs ++ l1)%list c l2 c' l3). rewrite <- !app_assoc. reflexivity.
  - intros c c' i K K'. apply in_split in K. destruct K as (l1 & l2 & ->). apply in_split in K'. destruct K' as (l3 & l4 & ->). apply (O l1 c (l2 ++ l3)%list c' l4). rewrite <- !app_assoc. cbn. rewrite <- ?app_assoc. reflexivity.
Qed.
Definition covers (cs : list (iriref * option sexpr)) (ts : list (string * T)) : Prop :=
  (forall t, In t ts -> exists p ve, In (p, ve) cs /\ stands p (fst t)) /\ forall p ve, In (p, ve) cs -> exists i o, In (i, o) ts /\ stands p i.
Lemma covered te : forall ts, unrestricted te -> forward te -> once_l (constraints te) -> covers (constraints te) ts -> matches te ts.
Proof.
  induction te as [id l mn mx a x F|id l mn mx a x F|id neg inv p0 ve0 mn mx a x|l] using texpr_ind'; intros ts U FW O C.
  - rewrite each_matches. cbn [unrestricted] in U. destruct U as [W U]. exists [ts]. split; [cbn; rewrite app_nil_r; apply Permutation_refl|]. split; [exact W|]. constructor; [|constructor]. cbn [constraints forward] in *. clear W mn mx a x id.
    revert ts C. induction l as [|te l IH]; intros ts C.
    + cbn. destruct ts as [|t ts]; [reflexivity|]. destruct C as [C _]. destruct (C t (or_introl eq_refl)) as (p & ve & [] & _).
    + cbn [flat_map List.map fold_right] in *. inversion F as [|? ? FT FL]; subst. destruct U as [UT UL], FW as [WT WL]. destruct (once_app _ _ O) as (OT & OL & X). destruct C as [C1 C2].
      exists (filter (takes (constraints te)) ts), (filter (fun t => negb (takes (constraints te) t)) ts). split; [apply filter_split|]. split.
      * apply FT; [exact UT|exact WT|exact OT|]. split.
        -- intros t K. apply filter_In in K. destruct K as [_ K]. apply takes_iff in K. exact K.
        -- intros p ve K. destruct (C2 p ve (in_or_app _ _ _ (or_introl K))) as (i & o & J & ST). exists i, o. split; [|exact ST]. apply filter_In. split; [exact J|]. apply takes_iff. eauto.
      * apply (IH FL UL WL OL). split.
        -- intros t K. apply filter_In in K. destruct K as [K N]. destruct (C1 t K) as (p & ve & J & ST). apply in_app_or in J. destruct J as [J|J]; [|eauto]. exfalso. assert (Q : takes (constraints te) t = true) by (apply takes_iff; eauto). rewrite Q in N. discriminate N.
        -- intros p ve K. destruct (C2 p ve (in_or_app _ _ _ (or_intror K))) as (i & o & J & ST). exists i, o. split; [|exact ST]. apply filter_In. split; [exact J|]. destruct (takes (constraints te) (i, o)) eqn:Q; [|reflexivity]. exfalso.
           apply takes_iff in Q. destruct Q as (p' & ve' & K' & ST'). exact (X _ _ i K' K ST' ST).
  - destruct U.
  - cbn [unrestricted] in U. destruct U as (NN & -> & (W & _) & ->). cbn [forward] in FW. cbn. destruct C as [C1 C2]. split; [exact NN|]. split; [exact FW|]. split.
    + destruct (C2 p0 None (or_introl eq_refl)) as (i & o & J & _). split; [|left; reflexivity]. destruct ts as [|t ts]; [destruct J|]. cbn [List.length]. cbn in W. destruct mn; lia.
    + apply Forall_forall. intros t K. split; [|exact Logic.I]. destruct (C1 t K) as (p & ve & [[= <- <-]|[]] & ST). exact ST.
  - destruct U.
Qed.
End Meaning.

Section Shapes.
Context {L : lib} {T : Type}.
Variable g : T -> string -> T -> Prop.
Variable value : sexpr -> T -> Prop.
Variable sch : schema.
Hypothesis PF : prefixes_fine sch.

Lemma shape_has_all closed extra te n arcs : outgoing g n arcs -> (forall te', te = Some te' -> required te') -> has_shape value (prefixes_of sch) closed extra te arcs -> has_all g sch te n.
Proof.
  intros (_ & OG) R (taken & rest & P & M & _) te' p -> (ve & K). destruct (matched value (prefixes_of sch) te' taken (R te' eq_refl) M p ve K) as (i & o & J & ST). exists i, o. split; [exact ST|]. apply OG. apply (Permutation_in _ (Permutation_sym P)), in_or_app. left. exact J.
Qed.
Lemma has_all_shape extra te n arcs closed : closed <> Some true -> outgoing g n arcs -> unrestricted te -> forward te -> once (prefixes_of sch) te -> has_all g sch (Some te) n -> has_shape value (prefixes_of sch) closed extra (Some te) arcs.
Proof.
  intros NC (_ & OG) U FW O H. exists (filter (takes (prefixes_of sch) (constraints te)) arcs), (filter (fun t => negb (takes (prefixes_of sch) (constraints te) t)) arcs). split; [apply filter_split|]. split.
  - apply (covered value (prefixes_of sch) PF te _ U FW O). split.
    + intros t K. apply filter_In in K. destruct K as [_ K]. apply (takes_iff _ PF) in K. exact K.
    + intros p ve K. destruct (H te p eq_refl (ex_intro _ ve K)) as (i & o & ST & G). exists i, o. split; [|exact ST]. apply filter_In. split; [apply OG, G|]. apply (takes_iff _ PF). eauto.
  - intros i o K. cbv zeta. split; [|contradiction]. intros te' p ve [= <-] J ST. exfalso. apply filter_In in K. destruct K as [_ K]. assert (Q : takes (prefixes_of sch) (constraints te) (i, o) = true) by (apply (takes_iff _ PF); eauto). rewrite Q in K. discriminate K.
Qed.
End Shapes.

(* ------------------------------------------------------------------ *)
Section Text.
Context {L : lib}.
Lemma patterns_text pm ps : Forall (fun t => is_iri (t_pred t)) ps -> exists r, show_patterns " " newline pm ps = Some r /\ pattern_lines pm ps r.
Proof.
  induction 1 as [|t ps (i & E) F (r & S & P)]; [exists ""; split; [reflexivity|constructor]|]. cbn [show_patterns]. unfold show_pattern. rewrite E, S.
  eexists. split; [reflexivity|]. replace (" " ++ ("?" ++ t_subj t ++ " " ++ qualify pm i ++ " ?" ++ t_obj t ++ " .") ++ newline ++ r) with (" ?" ++ t_subj t ++ " " ++ qualify pm i ++ " ?" ++ t_obj t ++ " ." ++ newline ++ r).
  - apply (P_cons pm t ps (qualify pm i) i r); [rewrite E; reflexivity|apply qualify_text|exact P].
  - assert (A : forall a b c : string, (a ++ b) ++ c = a ++ (b ++ c)) by (induction a as [|k a IH]; intros b c; cbn; [reflexivity|]; rewrite IH; reflexivity). rewrite !A. reflexivity.
Qed.
End Text.
