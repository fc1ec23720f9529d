(* C105: the results of SELECT queries as tables. *)
From Coq Require Import List String Ascii Bool Arith Lia.
Import ListNotations.
From Verif Require Import QtModel QtSpec QtLemmas.
Open Scope list_scope.

(* C105.  The full statement: the table and the CSV text written for the results of a query have a column for each variable and a row for each solution, a cell tells the value of its variable, and
   different values have different cells.
   It holds for at least one solution, when all solutions have the same variables in the same order, and for IRIs, blank nodes, strings and literals with other datatypes. *)
Theorem C105_csv_partial {L : lib} m vs l : l <> [] -> vs <> [] -> NoDup vs -> (forall s, In s l -> variables s = vs /\ List.length (values s) = List.length vs) ->
  exists t, serialize Csv m l = Some t /\
    read_csv t = Some (List.map (fun v => "?"%char :: v) vs :: List.map (fun s => List.map (fun v => cell m (value_of vs (values s) v)) vs) l).
Proof.
  intros NL NV D H. assert (R : List.map (record m) l = List.map (fun s => List.map (fun v => cell m (value_of vs (values s) v)) vs) l).
  { apply map_ext_in. intros s S. destruct (H s S) as [V E]. rewrite record_values; rewrite V; [reflexivity|exact D|exact E]. }
  destruct l as [|s l]; [congruence|]. assert (HS : heading s = List.map (fun v => "?"%char :: v) vs) by (unfold heading; now rewrite (proj1 (H s (or_introl eq_refl)))).
  cbn [serialize]. unfold write_csv. rewrite R, HS. apply read_records.
  - rewrite map_length. now destruct vs.
  - constructor; [reflexivity|]. apply Forall_forall. intros r X. apply in_map_iff in X as (u & <- & _). now rewrite !map_length.
Qed.
Theorem C105_cells_partial m t u : good m -> (forall x, t = Some x -> plain x) -> (forall x, u = Some x -> plain x) -> cell m t = cell m u -> t = u.
Proof.
  intros G. assert (NE : forall x, plain x -> cell m (Some x) <> []).
  { intros [i|b|l] P; cbn [cell]; [destruct (start m i G) as (c & r & -> & _); discriminate|discriminate|]. destruct (plain_literal l P) as (x & s & -> & _). discriminate. }
  assert (IB : forall i l, plain (Lit l) -> cell m (Some (Iri i)) <> cell m (Some (Lit l))).
  { intros i l P E. cbn [cell] in E. destruct (start m i G) as (c & r & X & C). destruct (plain_literal l P) as (x & s & Y & _). rewrite X, Y in E. now injection E. }
  assert (BL : forall b l, plain (Lit l) -> cell m (Some (Blank b)) <> cell m (Some (Lit l))).
  { intros b l P E. cbn [cell] in E. destruct (plain_literal l P) as (x & s & Y & _). rewrite Y in E. discriminate. }
  destruct t as [t|], u as [u|]; intros P Q E; [|now elim (NE t (P t eq_refl))|symmetry in E; now elim (NE u (Q u eq_refl))|reflexivity].
  specialize (P t eq_refl). specialize (Q u eq_refl). f_equal. destruct t as [i|b|l], u as [j|c|k].
  - cbn [cell] in E. now rewrite (qualify_inj m i j G E).
  - now apply (qualify_blank m i c G) in E.
  - now apply IB in E.
  - symmetry in E. now apply (qualify_blank m j b G) in E.
  - cbn [cell chars list_ascii_of_string app] in E. injection E as E. now subst.
  - now apply BL in E.
  - symmetry in E. now apply IB in E.
  - symmetry in E. now apply BL in E.
  - cbn [cell] in E. destruct (plain_literal l P) as (x & s & X & SX & LX), (plain_literal k Q) as (y & r & Y & SY & LY). rewrite X, Y in E. injection E as E.
    apply last_split in E as [-> ->]; [|assumption|assumption].
    destruct LX as [[-> ->]|[(g & -> & ->)|(d & -> & ->)]], LY as [[-> W]|[(g' & -> & W)|(d' & -> & W)]]; try discriminate W; [reflexivity| |].
    + injection W as ->. reflexivity.
    + injection W as W. now rewrite (qualify_inj basic d d' basic_good W).
Qed.
Theorem C105_rows_partial {L : lib} m vs l k s : NoDup vs -> (forall s, In s l -> variables s = vs /\ List.length (values s) = List.length vs) -> nth_error l k = Some s ->
  (exists st, serialize Internal m l = Some (layout st (rows m l) ++ [nl])) /\ nth_error (rows m l) 0 = Some ([] :: List.map (fun v => "?"%char :: v) vs) /\
  nth_error (rows m l) (S k) = Some (number (S k) :: List.map (fun v => cell m (value_of vs (values s) v)) vs) /\ List.length (rows m l) = S (List.length l).
Proof.
  intros D H K. destruct l as [|x l]; [now destruct k|]. split; [eexists; reflexivity|]. unfold rows. cbn [nth_error]. split; [|split].
  - unfold heading. now rewrite (proj1 (H x (or_introl eq_refl))).
  - destruct (H s (nth_error_In _ _ K)) as [V E]. assert (R : record m s = List.map (fun v => cell m (value_of vs (values s) v)) vs).
    { rewrite record_values; rewrite V; [reflexivity|exact D|exact E]. }
    rewrite <- R. clear -K. change (S k) with (S (0 + k)) at 1. revert K. generalize (x :: l). intros q. generalize 0. revert k. induction q as [|y q IH]; intros k n K; [now destruct k|].
    destruct k as [|k]; cbn [nth_error numbered] in *; [injection K as ->; now rewrite Nat.add_0_r|]. rewrite (IH k (S n) K). now rewrite Nat.add_succ_comm.
  - assert (X : forall q n, List.length (numbered m n q) = List.length q) by (clear; induction q as [|y q IH]; intros n; [reflexivity|]; cbn [numbered List.length]; now rewrite IH).
    cbn [List.length]. f_equal. exact (X (x :: l) 0).
Qed.
Theorem C105_select parts : fst (select parts) = List.concat (List.map fst parts).
Proof.
  unfold select. generalize (@nil (text * text)). change (List.concat (List.map fst parts)) with ([] ++ List.concat (List.map (@fst (list solution) prefixes) parts)). generalize (@nil solution).
  induction parts as [|p parts IH]; intros a m; cbn [fold_left List.map List.concat fst snd]; [now rewrite app_nil_r|]. rewrite IH. now rewrite app_assoc.
Qed.
(* Truth values are told from each other and from what is in the other cells. *)
Theorem C105_truth_partial m b t : good m -> (forall x, t = Some x -> plain x \/ exists c, x = Lit (Truth c)) -> cell m (Some (Lit (Truth b))) = cell m t -> t = Some (Lit (Truth b)).
Proof.
  intros G P E. destruct t as [t|]; [|now destruct b]. destruct (P t eq_refl) as [Q|(c & ->)]; [exfalso|now destruct b, c].
  destruct t as [i|n|l].
  - cbn [cell] in E. assert (N : ~ In ":"%char (qualify m i)) by (rewrite <- E; destruct b; cbn; intuition discriminate).
    apply (qualify_colon m i G) in N. rewrite <- E in N. now destruct b.
  - now destruct b.
  - cbn [cell] in E. destruct (plain_literal l Q) as (x & s & X & _). rewrite X in E. now destruct b.
Qed.
(* A prefix has the namespace given last. *)
Theorem C105_prefixes parts a : bound (snd (select parts)) a = bound (rev (List.concat (List.map snd parts))) a.
Proof.
  unfold select. set (step := fun acc p => _). assert (I : forall m q, bound (fold_left (fun m x => put m (fst x) (snd x)) q m) a = bound (rev q ++ m) a).
  { intros m q. revert m. induction q as [|[b i] q IH]; intros m; [reflexivity|]. cbn [fold_left rev fst snd]. rewrite IH, <- app_assoc. cbn [app].
    generalize (rev q). intros u. induction u as [|[c j] u IU]; cbn [app bound]; [apply bound_put|]. now rewrite IU. }
  assert (J : forall p acc, bound (snd (fold_left step p acc)) a = bound (rev (List.concat (List.map snd p)) ++ snd acc) a).
  { induction p as [|p ps IH]; intros acc; [reflexivity|]. cbn [fold_left List.map List.concat]. rewrite IH. unfold step at 1. cbn [snd]. rewrite rev_app_distr, <- app_assoc.
    generalize (rev (List.concat (List.map snd ps))). intros u. induction u as [|[c j] u IU]; cbn [app bound]; [apply I|]. now rewrite IU. }
  rewrite J. cbn [snd]. now rewrite app_nil_r.
Qed.
Print Assumptions C105_truth_partial.
Print Assumptions C105_prefixes.
Print Assumptions C105_csv_partial.
Print Assumptions C105_cells_partial.
Print Assumptions C105_rows_partial.
Print Assumptions C105_select.

Definition pm : prefixes := [(chars "ex", chars "http://e/")].
Definition one : solution := {| variables := [chars "x"; chars "y"]; values := [Some (Iri (chars "http://e/a")); Some (Lit (Str (chars "a,b") (Some (chars "en"))))] |}.
Definition two : solution := {| variables := [chars "x"; chars "y"]; values := [Some (Blank (chars "n")); None] |}.
Example C105_met : (forall s, In s [one; two] -> variables s = [chars "x"; chars "y"] /\ List.length (values s) = 2) /\ NoDup [chars "x"; chars "y"] /\ good pm /\
  plain (Iri (chars "http://e/a")) /\ plain (Lit (Str (chars "a,b") (Some (chars "en")))) /\
  write_csv pm [one; two] = Some (chars "?x,?y" ++ [nl] ++ chars "ex:a," ++ [quote; quote; quote] ++ chars "a,b" ++ [quote; quote] ++ chars "@en" ++ [quote; nl] ++ chars "_:n," ++ [nl]) /\
  fst (select [([one], pm); ([two], [])]) = [one; two] /\ bound (snd (select [([one], pm); ([two], [(chars "ex", chars "http://f/")])])) (chars "ex") = Some (chars "http://f/") /\
  cell pm (Some (Lit (Truth false))) = chars "false".
Proof.
  split; [intros s [<-|[<-|[]]]; split; reflexivity|]. split; [repeat constructor; cbn; intuition discriminate|].
  split; [split; [repeat constructor; cbn; intuition discriminate|repeat constructor; cbn; try discriminate; intuition discriminate]|]. split; [exact Logic.I|].
  split; [cbn; intuition discriminate|]. repeat split; vm_compute; reflexivity.
Qed.

(* False: no solutions are a table without rows. The text is read as one column with the heading No results, and the variables are not told. *)
Theorem C105_empty_refuted : exists t, write_csv pm [] = Some t /\ read_csv t = Some [[chars "No results"]].
Proof. eexists. split; vm_compute; reflexivity. Qed.
(* False: a cell tells the variable of its column. Endpoints may give the variables of SELECT * in other orders, and the headings are those of the first solution. *)
Definition swapped : solution := {| variables := [chars "y"; chars "x"]; values := [Some (Blank (chars "vy")); Some (Blank (chars "vx"))] |}.
Theorem C105_columns_refuted : exists l t, fst (select l) = [two; swapped] /\ write_csv pm [two; swapped] = Some t /\
  read_csv t = Some [[chars "?x"; chars "?y"]; [chars "_:n"; []]; [chars "_:vy"; chars "_:vx"]] /\ value_of (variables swapped) (values swapped) (chars "x") = Some (Blank (chars "vx")).
Proof. exists [([two], pm); ([swapped], [])]. eexists. split; [reflexivity|]. split; [vm_compute; reflexivity|]. split; vm_compute; reflexivity. Qed.
(* False: all solutions are written. Solutions with another number of variables are an error. *)
Theorem C105_width_refuted : exists s, write_csv pm [two; s] = None.
Proof. exists {| variables := [chars "x"]; values := [None] |}. vm_compute. reflexivity. Qed.
(* False: different values have different cells. The kind of a number is not shown, nor whether a datatype is wrong, and dates look like numbers. *)
Theorem C105_kinds_refuted : exists t u, t <> u /\ cell pm (Some t) = cell pm (Some u).
Proof. exists (Lit (Num (chars "integer") (chars "1"))), (Lit (Num (chars "long") (chars "1"))). split; [discriminate|reflexivity]. Qed.
(* False: names in cells are names of the prefixes of the table. Datatypes are shown with other prefixes. *)
Theorem C105_datatype_refuted : exists m i j x, i <> j /\ cell m (Some (Iri i)) = chars ":d" /\ cell m (Some (Lit (Typed x j))) = quote :: x ++ quote :: chars "^^:d".
Proof.
  exists [([], chars "http://mine/")], (chars "http://mine/d"), (chars "http://example.org/d"), (chars "x"). split; [discriminate|]. split; vm_compute; reflexivity.
Qed.
(* False: Markdown is written when it is asked for. The style is that of the default options for each format. *)
#[local] Instance named : lib := { layout st _ := match st with ModernRounded => chars "rounded" | AsciiStyle => chars "ascii" | Markdown => chars "markdown" end; number n := repeat "i"%char n }.
Theorem C105_markdown_refuted : exists (L : lib) m l, l <> [] /\ serialize MarkdownFormat m l <> Some (layout Markdown (rows m l) ++ [nl]) /\ serialize MarkdownFormat m l = serialize Internal m l.
Proof. exists named, pm, [one]. split; [discriminate|]. split; [vm_compute; discriminate|reflexivity]. Qed.
Print Assumptions C105_empty_refuted.
Print Assumptions C105_columns_refuted.
Print Assumptions C105_width_refuted.
Print Assumptions C105_kinds_refuted.
Print Assumptions C105_datatype_refuted.
Print Assumptions C105_markdown_refuted.
