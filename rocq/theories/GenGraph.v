(* Lemmas about the generator: the whole graph. *)
From Coq Require Import List String Ascii Bool ZArith QArith Permutation Lia.
Import ListNotations.
From Verif Require Import SjModel CoModel CoSpec SqModel SqSpec SqLemmas GenModel GenSpec GenLemmas GenNames GenEntity.
Open Scope string_scope.
Open Scope Z_scope.

Section Graph.
Context {L : lib} {G : glib}.

(* ------------------------------------------------------------------ *)
(* Easy triple expressions                                              *)

Fixpoint flat (te : texpr) : list cons :=
  match te with
  | TEach _ l _ _ _ _ => flat_map flat l
  | TTriple _ _ _ (Iri i) (Some (SNode n)) mn mx _ _ => [(i, n, mn, mx)]
  | _ => []
  end.
Definition easy_cons (c : cons) : Prop := c_name c <> the_type /\ easy_node (c_node c) /\ easy_repeat (snd (fst c)) (snd c).

Lemma fold_and {A} (P : A -> Prop) l : fold_right and True (List.map P l) <-> Forall P l.
Proof. induction l as [|a l IH]; cbn; split; intro H; auto. - destruct H. constructor; tauto. - inversion H. tauto. Qed.

Lemma easy_refs n : easy_node n -> refs_of (convert_node_constraint n) = [].
Proof.
  intros (d & D & _ & _ & K & _). unfold convert_node_constraint, refs_of. rewrite D, !flat_map_app.
  assert (R : forall fs, flat_map (fun c => match c with CShapeRef r => [r] | _ => [] end) (flat_map convert_facet fs) = []).
  { induction fs as [|f fs IH]; cbn; [reflexivity|]. rewrite flat_map_app. rewrite IH. destruct f; reflexivity. }
  destruct K as [-> | ->]; cbn; destruct (n_facets n); auto.
Qed.

Lemma easy_flat te : easy te ->
  List.map to_prop (extract_properties te) = List.map prop_of (flat te) /\ flat_map to_deps (extract_properties te) = [] /\
  List.map fst (constraints te) = List.map (fun c => Iri (c_name c)) (flat te) /\ Forall easy_cons (flat te).
Proof.
  induction te as [id l mn mx a x F|id l mn mx a x F|id neg inv p ve mn mx a x|l] using texpr_ind'; intro E; cbn [easy] in E; try destruct E.
  - apply fold_and in H0. cbn [extract_properties flat constraints]. clear H. induction F as [|te l IH F IH']; cbn; [auto|].
    inversion H0 as [|? ? H1 H2]; subst. destruct (IH H1) as (A1 & A2 & A3 & A4), (IH' H2) as (B1 & B2 & B3 & B4).
    rewrite !map_app, flat_map_app, A1, B1, A2, B2, A3, B3. repeat split; auto. apply Forall_app. auto.
  - destruct H0 as (Hi & (i & -> & Ni) & (n & -> & En) & R). cbn [extract_properties flat constraints List.map flat_map]. unfold to_deps at 1. cbn [u_cons]. rewrite (easy_refs n En). repeat split; auto. constructor; [|constructor]. split; [exact Ni|]. split; [exact En|exact R].
Qed.

Lemma nodup_l {A} (l m : list A) : NoDup (l ++ m) -> NoDup l.
Proof. induction l as [|a l IH]; cbn; intro N; [constructor|]. inversion N as [|? ? N1 N2]; subst. constructor; [|apply IH, N2]. intro I. apply N1, in_or_app. auto. Qed.
Lemma nodup_r {A} (l m : list A) : NoDup (l ++ m) -> NoDup m.
Proof. induction l as [|a l IH]; cbn; intro N; [exact N|]. inversion N. auto. Qed.

Section Matching.
Variable value : sexpr -> term -> Prop.
Definition all_match := fix all (l : list texpr) (ts : list (string * term)) : Prop :=
  match l with [] => ts = [] | te :: l => exists a b, Permutation ts (a ++ b) /\ matches value [] te a /\ all l b end.
Lemma each_matches id l mn mx a x ts : matches value [] (TEach id l mn mx a x) ts =
  exists parts, Permutation ts (List.concat parts) /\ within mn mx (List.length parts) /\ Forall (all_match l) parts.
Proof. reflexivity. Qed.

Definition of_pred (i : string) (ts : list (string * term)) := filter (fun t => String.eqb (fst t) i) ts.
Definition suits (cs : list cons) (ts : list (string * term)) : Prop :=
  (forall t, In t ts -> exists c, In c cs /\ c_name c = fst t) /\
  forall c, In c cs -> enough (snd (fst c)) (snd c) (List.length (of_pred (c_name c) ts)) /\ forall t, In t ts -> fst t = c_name c -> value (SNode (c_node c)) (snd t).

Lemma enough_within mn mx k : enough mn mx k -> within mn mx k.
Proof. intro H. exact H. Qed.

Lemma suits_split cs cs' ts : NoDup (List.map c_name (cs ++ cs')) -> suits (cs ++ cs') ts -> exists a b, Permutation ts (a ++ b) /\ suits cs a /\ suits cs' b.
Proof.
  intros N [S1 S2]. set (f := fun t : string * term => existsb (fun c => String.eqb (fst t) (c_name c)) cs).
  assert (Ff : forall t, f t = true <-> exists c, In c cs /\ c_name c = fst t).
  { intro t. unfold f. rewrite existsb_exists. split; intros (c & I & E); exists c; (split; [exact I|]); [symmetry; apply String.eqb_eq, E|apply String.eqb_eq; auto]. }
  assert (Sep : forall c c', In c cs -> In c' cs' -> c_name c <> c_name c').
  { intros c c' I I' E. rewrite map_app in N. clear -N I I' E. induction cs as [|x cs IH]; [destruct I|]. cbn in N. inversion N as [|? ? N1 N2]; subst.
    destruct I as [->|I]; [|apply IH; assumption]. apply N1. apply in_or_app. right. rewrite E. apply in_map, I'. }
  assert (Len : forall (g : string * term -> bool) c, (forall t, In t ts -> fst t = c_name c -> g t = true) -> List.length (of_pred (c_name c) (filter g ts)) = List.length (of_pred (c_name c) ts)).
  { intros g c Hg. clear -Hg. induction ts as [|t ts IH]; [reflexivity|]. cbn [of_pred filter]. unfold of_pred in IH |- *. destruct (String.eqb_spec (fst t) (c_name c)) as [E|E].
    - rewrite (Hg t (or_introl eq_refl) E). cbn [filter]. rewrite (proj2 (String.eqb_eq _ _) E). cbn [List.length]. f_equal. apply IH. intros. apply Hg; [right|]; assumption.
    - destruct (g t); cbn [filter]; [rewrite (proj2 (String.eqb_neq _ _) E)|]; apply IH; intros; apply Hg; try (right; assumption); assumption. }
  exists (filter f ts), (filter (fun t => negb (f t)) ts). split; [|split; split].
  - clear. induction ts as [|t ts IH]; cbn; [constructor|]. destruct (f t); cbn; [constructor; exact IH|]. rewrite IH at 1. apply Permutation_middle.
  - intros t I. apply filter_In in I. apply Ff, I.
  - intros c I. destruct (S2 c (in_or_app _ _ _ (or_introl I))) as [E V]. split.
    + rewrite (Len f c); [exact E|]. intros t _ Et. apply Ff. eauto.
    + intros t It. apply filter_In in It. apply V, It.
  - intros t I. apply filter_In in I. destruct I as [I Nf]. apply negb_true_iff in Nf. destruct (S1 t I) as (c & Ic & Ec). apply in_app_or in Ic. destruct Ic as [Ic|Ic]; [|eauto].
    rewrite (proj2 (Ff t)) in Nf by eauto. discriminate.
  - intros c I. destruct (S2 c (in_or_app _ _ _ (or_intror I))) as [E V]. split.
    + rewrite (Len (fun t => negb (f t)) c); [exact E|]. intros t _ Et. apply negb_true_iff. destruct (f t) eqn:Et'; [|reflexivity]. apply Ff in Et'. destruct Et' as (c' & I' & E').
      exfalso. apply (Sep c' c I' I). congruence.
    + intros t It. apply filter_In in It. apply V, It.
Qed.

Lemma easy_matches te : forall ts, easy te -> NoDup (List.map c_name (flat te)) -> suits (flat te) ts -> matches value [] te ts.
Proof.
  induction te as [id l mn mx a x F|id l mn mx a x F|id neg inv p ve mn mx a x|l] using texpr_ind'; intros ts E N S; cbn [easy] in E; try destruct E.
  - apply fold_and in H0. rewrite each_matches. exists [ts]. split; [cbn; rewrite app_nil_r; reflexivity|]. split; [exact H|]. constructor; [|constructor].
    cbn [flat] in N, S. clear H. revert ts S. induction F as [|te l IH F IH']; intros ts S.
    + destruct S as [S1 _]. destruct ts as [|t ts]; [reflexivity|]. destruct (S1 t (or_introl eq_refl)) as (c & [] & _).
    + inversion H0 as [|? ? H1 H2]; subst. cbn [flat_map] in N, S. destruct (suits_split _ _ _ N S) as (a' & b' & P & Sa & Sb). cbn [all_match]. exists a', b'.
      rewrite map_app in N. assert (N1 : NoDup (List.map c_name (flat te))) by (eapply nodup_l; exact N). assert (N2 : NoDup (List.map c_name (flat_map flat l))) by (eapply nodup_r; exact N).
      split; [exact P|]. split; [apply IH; assumption|]. apply IH'; assumption.
  - destruct H0 as (Hi & (i & -> & Ni) & (n & -> & En) & R). cbn [flat] in S. destruct S as [S1 S2]. destruct (S2 _ (or_introl eq_refl)) as [W V]. cbn [c_name c_node fst snd] in W, V.
    assert (Al : of_pred i ts = ts).
    { clear -S1. induction ts as [|t ts IH]; [reflexivity|]. cbn. destruct (S1 t (or_introl eq_refl)) as (c & [<-|[]] & Ec). cbn in Ec. rewrite <- Ec, String.eqb_refl. f_equal. apply IH. intros; apply S1; right; assumption. }
    rewrite Al in W. cbn [matches]. split; [exact H|]. split; [exact Hi|]. split; [exact W|]. apply Forall_forall. intros t I. destruct (S1 t I) as (c & [<-|[]] & Ec). cbn in Ec. split; [cbn; auto|].
    cbn [value_ok]. apply V; auto.
Qed.
End Matching.

(* ------------------------------------------------------------------ *)
(* Shapes                                                               *)

Variable ord : forall A : Type, list (string * A) -> list (string * A).
Hypothesis ord_perm : forall A (l : list (string * A)), Permutation (ord A l) l.

Lemma put_new {A} k (a : A) m : ~ In k (List.map fst m) -> put k a m = (m ++ [(k, a)])%list.
Proof. induction m as [|[k' a'] m IH]; cbn; [reflexivity|]. intro H. destruct (String.eqb_spec k k') as [->|]; [tauto|]. rewrite IH by tauto. reflexivity. Qed.
Lemma put_all {A B} (key : A -> string) (val : A -> B) l : forall m, NoDup (List.map fst m ++ List.map key l) ->
  fold_left (fun m a => put (key a) (val a) m) l m = (m ++ List.map (fun a => (key a, val a)) l)%list.
Proof.
  induction l as [|a l IH]; intros m N; cbn; [rewrite app_nil_r; reflexivity|].
  assert (N' : ~ In (key a) (List.map fst m)). { cbn in N. apply NoDup_remove_2 in N. intro I. apply N, in_or_app. auto. }
  rewrite put_new by exact N'. rewrite IH; [rewrite <- app_assoc; reflexivity|]. rewrite map_app. cbn. rewrite <- app_assoc. exact N.
Qed.
Lemma lookup_some {A} k (a : A) m : NoDup (List.map fst m) -> In (k, a) m -> lookup k m = Some a.
Proof.
  induction m as [|[k' a'] m IH]; cbn; [intros _ []|]. intros N I. inversion N as [|? ? N1 N2]; subst. destruct I as [E|I].
  - injection E as -> ->. rewrite String.eqb_refl. reflexivity.
  - destruct (String.eqb_spec k k') as [->|]; [|auto]. exfalso. apply N1. apply (in_map fst) in I. exact I.
Qed.

Definition label_of (d : decl) : string := show_label (d_id d).
Definition te_of (d : decl) : option texpr := match d_expr d with SShape _ _ te _ _ _ => te | _ => None end.
Definition info_of (d : decl) : info :=
  {| i_id := label_of d; i_deps := []; i_props := match te_of d with Some te => List.map prop_of (flat te) | None => [] end |}.

Lemma easy_label d : easy_decl d -> iri_ok (label_of d) = true.
Proof. intros ((i & E & O) & _). unfold label_of. rewrite E. exact O. Qed.
Lemma easy_info d : easy_decl d ->
  {| i_id := info_id (label_of d); i_deps := flat_map to_deps (u_props (convert_decl d)); i_props := List.map to_prop (u_props (convert_decl d)) |} = info_of d.
Proof.
  intro E. unfold info_id. rewrite (easy_label d E). destruct E as (_ & closed & extra & te & a & n & Ex & _ & Es). unfold info_of, convert_decl, te_of. rewrite Ex. cbn.
  destruct te as [te|]; [|reflexivity]. destruct (easy_flat te (proj1 (Es te eq_refl))) as (-> & -> & _). reflexivity.
Qed.
Lemma easy_labels ds : easy_schema ds -> NoDup (List.map label_of ds).
Proof.
  intros [F N]. induction F as [|d ds E F IH]; cbn in *; [constructor|]. inversion N as [|? ? N1 N2]; subst. constructor; [|apply IH, N2].
  intro I. apply in_map_iff in I. destruct I as (d' & E' & I'). apply N1. rewrite Forall_forall in F. destruct (F d' I') as ((i' & Ei' & _) & _), E as ((i & Ei & _) & _).
  unfold label_of in E'. rewrite Ei, Ei' in E'. cbn in E'. subst i'. rewrite Ei, <- Ei'. apply in_map, I'.
Qed.

Lemma easy_shapes ds : easy_schema ds ->
  Permutation (set_shapes (to_infos ord (convert_shapes ds))) (List.map (fun d => (label_of d, info_of d)) ds).
Proof.
  intro E. pose proof (easy_labels ds E) as N. destruct E as [F _].
  assert (C : convert_shapes ds = List.map (fun d => (label_of d, convert_decl d)) ds) by (apply (put_all label_of convert_decl ds []); exact N).
  unfold to_infos. rewrite C. set (m := List.map (fun d => (label_of d, convert_decl d)) ds).
  assert (P : Permutation (List.map (fun e => {| i_id := info_id (fst e); i_deps := flat_map to_deps (u_props (snd e)); i_props := List.map to_prop (u_props (snd e)) |}) (ord _ m)) (List.map info_of ds)).
  { rewrite (ord_perm _ m). unfold m. rewrite map_map. cbn [fst snd]. erewrite map_ext_in; [reflexivity|]. intros d I. apply easy_info. rewrite Forall_forall in F. apply F, I. }
  set (l := List.map _ (ord _ m)) in *. clearbody l.
  assert (Nl : NoDup (List.map i_id l)). { rewrite P. rewrite map_map. exact N. }
  unfold set_shapes. rewrite (put_all i_id (fun i => i) l []) by exact Nl. cbn [app]. rewrite P, map_map. reflexivity.
Qed.

(* ------------------------------------------------------------------ *)
(* Numbers of entities                                                  *)

Lemma total_app a b : total (a ++ b) = total a + total b.
Proof. induction a as [|x a IH]; cbn; [reflexivity|]. fold (total (a ++ b)) (total a). rewrite IH. lia. Qed.
Lemma total_perm a b : Permutation a b -> total a = total b.
Proof. induction 1; cbn in *; unfold total in *; lia. Qed.

Variable cfg : config.

Lemma equal_total base rest (keys : list string) : forall a, 0 <= rest ->
  total (List.map (fun e => if Z.of_nat (fst e) <? rest then base + 1 else base) (combine (seq a (List.length keys)) keys)) =
  Z.of_nat (List.length keys) * base + Z.max 0 (Z.min (Z.of_nat (List.length keys)) (rest - Z.of_nat a)).
Proof.
  induction keys as [|k keys IH]; intros a R; [cbn; lia|]. cbn [List.length seq combine List.map fst]. unfold total in *. cbn [fold_right]. rewrite IH by exact R.
  destruct (Z.ltb_spec (Z.of_nat a) rest); lia.
Qed.

Lemma counts_fine (shapes : list (string * info)) : NoDup (List.map fst shapes) -> divides cfg -> exists cs, counts ord cfg shapes = Ok cs /\
  Permutation (List.map fst cs) (List.map fst shapes) /\ Forall (fun e => 0 <= snd e) cs /\ allotted cfg (List.map fst shapes) (fun id => match lookup id cs with Some n => n | None => 0 end).
Proof.
  intros N D. unfold counts, allotted, divides in *. destruct D as [D0 D].
  assert (PK : Permutation (List.map fst (ord _ shapes)) (List.map fst shapes)) by (apply Permutation_map, ord_perm).
  set (keys := List.map fst (ord _ shapes)) in *.
  assert (NK : NoDup keys) by (rewrite PK; exact N).
  assert (LK : List.length keys = List.length shapes) by (rewrite (Permutation_length PK), map_length; reflexivity).
  destruct (c_distribution cfg) as [|ws|cs].
  - destruct (Z.eqb_spec (Z.of_nat (List.length shapes)) 0) as [Z|Z].
    + destruct shapes as [|s shapes]; [|cbn in Z; lia]. exists []. split; [reflexivity|]. cbn. split; [constructor|]. split; [constructor|]. split; [congruence|intros i j []].
    + set (base := c_count cfg / Z.of_nat (List.length shapes)). set (rest := c_count cfg mod Z.of_nat (List.length shapes)).
      assert (Rr : 0 <= rest < Z.of_nat (List.length shapes)) by (apply Z.mod_pos_bound; lia).
      assert (Rb : 0 <= base) by (apply Z.div_pos; lia).
      assert (Eq : c_count cfg = Z.of_nat (List.length shapes) * base + rest) by (apply Z.div_mod; lia).
      set (cs := List.map (fun e => (snd e, if Z.of_nat (fst e) <? rest then base + 1 else base)) (combine (seq 0 (List.length keys)) keys)).
      assert (Fst : List.map fst cs = keys).
      { unfold cs. rewrite map_map. cbn [fst]. clear. generalize 0%nat. induction keys as [|k keys IH]; intro a; cbn; [reflexivity|]. rewrite IH. reflexivity. }
      assert (Snd : List.map snd cs = List.map (fun e => if Z.of_nat (fst e) <? rest then base + 1 else base) (combine (seq 0 (List.length keys)) keys)) by (unfold cs; rewrite map_map; reflexivity).
      assert (In_cs : forall k n, In (k, n) cs -> base <= n <= base + 1). { intros k n I. unfold cs in I. apply in_map_iff in I. destruct I as (e & E & _). injection E as _ <-. destruct (_ <? _); lia. }
      assert (Look : forall k, In k (List.map fst shapes) -> exists n, lookup k cs = Some n /\ base <= n <= base + 1).
      { intros k I. rewrite <- PK, <- Fst in I. apply in_map_iff in I. destruct I as ([k' n] & E & I). cbn in E. subst k'. exists n. split; [|apply (In_cs k), I].
        apply lookup_some; [rewrite Fst; exact NK|exact I]. }
      exists cs. split; [reflexivity|]. split; [rewrite Fst; exact PK|]. split.
      * apply Forall_forall. intros [k n] I. cbn. pose proof (In_cs k n I). lia.
      * split.
        -- intros _. rewrite <- (total_perm _ _ (Permutation_map _ PK)). rewrite <- Fst. rewrite map_map.
           transitivity (total (List.map snd cs)).
           { apply f_equal. apply map_ext_in. intros [k n] I. cbn [fst snd]. rewrite (lookup_some k n cs); [reflexivity|rewrite Fst; exact NK|exact I]. }
           rewrite Snd. rewrite equal_total by lia. rewrite LK. cbn [Z.of_nat]. lia.
        -- intros i j Ii Ij. destruct (Look i Ii) as (n & -> & Hn), (Look j Ij) as (n' & -> & Hn'). lia.
  - destruct (Qle_bool (fold_right (fun e s => (snd e + s)%Q) 0%Q ws) 0) eqn:E.
    { apply Qle_bool_iff in E. exfalso. apply (Qlt_not_le _ _ D E). }
    eexists. split; [reflexivity|]. rewrite map_map. cbn [fst]. rewrite map_id. split; [exact PK|]. split; [|exact Logic.I].
    apply Forall_forall. intros [k n] I. apply in_map_iff in I. destruct I as (k' & E' & _). injection E' as _ <-. cbn [snd]. lia.
  - eexists. split; [reflexivity|]. rewrite map_map. cbn [fst]. rewrite map_id. split; [exact PK|].
    assert (Lk : forall k, (exists n, lookup k cs = Some n /\ first_of k cs n) \/ lookup k cs = None /\ ~ In k (List.map fst cs)).
    { intro k. clear. induction cs as [|[k' n] cs IH]; cbn; [right; auto|]. destruct (String.eqb_spec k k') as [->|Ne].
      - left. exists n. split; [reflexivity|]. exists [], cs. auto.
      - destruct IH as [(m & E & a & b & -> & Na)|[E Nk]].
        + left. exists m. split; [exact E|]. exists ((k', n) :: a), b. split; [reflexivity|]. cbn. intros [->|I]; [apply Ne; reflexivity|apply Na, I].
        + right. split; [exact E|]. intros [->|I]; [apply Ne; reflexivity|apply Nk, I]. }
    set (cs' := List.map (fun id => (id, match lookup id cs with Some n => n | None => 0 end)) keys).
    assert (Look : forall k, In k (List.map fst shapes) -> lookup k cs' = Some (match lookup k cs with Some n => n | None => 0 end)).
    { intros k I. apply lookup_some; [unfold cs'; rewrite map_map; cbn; rewrite map_id; exact NK|]. unfold cs'. apply in_map_iff. exists k. split; [reflexivity|]. rewrite PK. exact I. }
    split.
    + apply Forall_forall. intros [k n] I. apply in_map_iff in I. destruct I as (k' & E' & _). injection E' as _ <-. cbn [snd]. destruct (Lk k') as [(m & -> & a & b & -> & _)|[-> _]]; [|lia].
      apply (D k'). apply in_or_app. right. left. reflexivity.
    + intros i Ii. rewrite (Look i Ii). destruct (Lk i) as [(m & -> & Fo)|[-> Nk]]; [left; exact Fo|right; auto].
Qed.
End Graph.
