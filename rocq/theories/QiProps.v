(* C109: files given to QLever reach its index. *)
From Coq Require Import List String Ascii Bool Arith NArith Lia.
From Verif Require Import QiModel QiSpec QiLemmas.
Import ListNotations.
Open Scope list_scope.

(* The full statement: the shell in the container reads the command as the arguments it was made of,
   each path in it is the file that was given, and the index that is served holds what the files hold.
   It holds as follows. *)

(* Arguments other than the empty one are read back. *)
Theorem C109_shell_partial : forall l, Forall (fun a => a <> []) l -> words Outside (shell_join l) = Some l.
Proof. exact join_words. Qed.
Print Assumptions C109_shell_partial.

(* An empty argument, such as an empty name of the graph, is lost, and others are taken for it. *)
Theorem C109_shell_refuted : exists a b c, words Outside (shell_join [a; b; c]) = Some [a; c].
Proof. exists (chars "-g"), [], (chars "-f"). reflexivity. Qed.
Print Assumptions C109_shell_refuted.

Lemma head_opening cmd cfg : opening cmd cfg (head_of cmd cfg).
Proof.
  exists (option_flag "-m" (fun x => x) (memory cfg)), (option_flag "--parser-buffer-size" (fun x => x) (buffer cfg)),
    (option_flag "--parse-parallel" (fun b : bool => chars (if b then "true" else "false")) (parallel cfg)).
  split; [reflexivity|]. repeat split; unfold option_flag.
  - now intros m ->.
  - now intros ->.
  - now intros m ->.
  - now intros ->.
  - now intros ->.
  - now intros ->.
  - now intros ->.
Qed.
Lemma flags_told p i : told p i (flags p i).
Proof. destruct i as [f n t g k]. destruct t; (eapply Told; [cbn; auto|reflexivity]). Qed.

(* Each input is given once, in order, with its format and graph; a packed one as the standard input,
   any other under a path by which the container sees that file and no other.  Only the folder of the
   index can be written.  Proved for folders without colons. *)
Theorem C109_mounts_partial : forall cmd inputs cfg idx argv binds,
  colonless idx -> Forall (fun i => colonless (folder i)) inputs ->
  build_argv cmd inputs cfg idx = Some (argv, binds) ->
  (exists ps first each, argv = first ++ List.concat each /\ opening cmd cfg first /\
    Forall2 (fun x a => told (snd x) (fst x) a) (combine inputs ps) each /\
    Forall2 (fun i p => match packed i with Some _ => p = chars "-" | None => shows binds p i end) inputs ps) /\
  (forall b h c m, In b binds -> read_bind b = Some (h, c, m) ->
    (h = idx /\ c = chars "/data" /\ m = chars "rw") \/
    (h <> idx /\ m = chars "ro" /\ exists i, In i inputs /\ folder i = h)).
Proof.
  intros cmd inputs cfg idx argv binds CI CL. unfold build_argv.
  destruct (1 <? List.length (filter is_packed inputs)); [discriminate|].
  destruct (arguments idx inputs [] [bind idx data_dir (chars "rw")]) as [a b] eqn:E. intros [= <- <-].
  destruct (arguments_good _ _ _ _ _ _ (good_start idx) E) as (ms & ps & G & _ & O & -> & F).
  assert (CM : forall f c, In (f, c) ms -> colonless f /\ colonless c).
  { intros f c H. split.
    - destruct (O f c H) as [[]|(i & I & <-)]. rewrite Forall_forall in CL. now apply CL.
    - destruct (g_dir _ _ _ G f c H) as [[_ ->]|(_ & _ & k & _ & ->)]; [cbn; unfold colonless; cbn; intuition discriminate|apply inputs_dir_colonless]. }
  assert (CR : colonless (chars "ro") /\ colonless (chars "rw") /\ colonless data_dir)
    by (unfold colonless; cbn; intuition discriminate).
  destruct CR as (C1 & C2 & C3).
  assert (RB : forall x h c m, In x b -> read_bind x = Some (h, c, m) ->
    (h = idx /\ c = data_dir /\ m = chars "rw") \/ (In (h, c) ms /\ h <> idx /\ m = chars "ro")).
  { intros x h c m X R. destruct (g_binds _ _ _ G x X) as [->|(f & d & D & N & ->)].
    - rewrite read_bind_bind in R by assumption. injection R as <- <- <-. now left.
    - destruct (CM f d D). rewrite read_bind_bind in R by assumption. injection R as <- <- <-. right. auto. }
  split.
  - exists ps, (head_of cmd cfg), (List.map (fun x => flags (snd x) (fst x)) (combine inputs ps)). split; [reflexivity|].
    split; [apply head_opening|]. split.
    { clear. induction (combine inputs ps) as [|[i p] l IH]; constructor; [|exact IH]. apply flags_told. }
    clear -F G CM RB CI C1 C2 C3. induction F as [|i p l ps H F IH]; constructor; [|exact IH].
    unfold is_packed in H. destruct (packed i); [exact H|]. destruct H as (c & I & ->). exists c. split; [reflexivity|].
    destruct (CM _ _ I) as [A B]. split.
    + destruct (g_dir _ _ _ G _ _ I) as [[D ->]|(_ & J & _)].
      * exists (bind idx data_dir (chars "rw")), (chars "rw"). split; [apply (g_first _ _ _ G)|]. rewrite D. now apply read_bind_bind.
      * exists (bind (folder i) c (chars "ro")), (chars "ro"). split; [exact J|]. now apply read_bind_bind.
    + intros h (x & m & X & R). destruct (RB x h c m X R) as [(-> & -> & _)|(D & _ & _)].
      * destruct (g_dir _ _ _ G _ _ I) as [[D _]|(_ & _ & k & _ & K)]; [now rewrite D|]. symmetry in K. now elim (inputs_dir_data k).
      * exact (g_once _ _ _ G _ _ _ D I).
  - intros x h c m X R. destruct (RB x h c m X R) as [K|(D & N & K)]; [now left|]. right. split; [exact N|]. split; [exact K|].
    destruct (O h c D) as [[]|H]. exact H.
Qed.
Print Assumptions C109_mounts_partial.

(* A folder with a colon in its name is not mounted. *)
Definition plain_config : config :=
  {| index_name := chars "default"; memory := None; buffer := None; parallel := None; index_dir := None |}.
Definition nt_file (f n : string) : input :=
  {| folder := chars f; name := chars n; format_of := NTriples; graph := None; packed := None |}.
Theorem C109_colon_refuted : exists i cmd cfg idx argv binds, build_argv cmd [i] cfg idx = Some (argv, binds) /\
  forall c, ~ mounted binds (folder i) c.
Proof.
  exists (nt_file "/data:2024" "a.nt"), (chars "IndexBuilderMain"), plain_config, (chars "/i"). do 2 eexists. split; [reflexivity|].
  intros c (b & m & [<-|[<-|[]]] & R); vm_compute in R; discriminate R.
Qed.
Print Assumptions C109_colon_refuted.

(* Inputs that differ are hashed from texts that differ, as long as no graphs are named. *)
Theorem C109_stream_partial : forall l m, Forall ordinary l -> Forall ordinary m -> stream l = stream m -> l = m.
Proof. exact stream_inj. Qed.
Print Assumptions C109_stream_partial.

(* With names of graphs, the same text, and so the same folder, is had from different inputs. *)
Theorem C109_stream_refuted : exists i j, folder i = folder j /\ name i = name j /\ graph i <> graph j /\
  forall (L : lib) cfg, resolve cfg (stream [i]) = resolve cfg (stream [j]).
Proof.
  exists {| folder := chars "/d"; name := chars "a"; format_of := NTriples; graph := Some (chars "http://g/xz"); packed := None |},
    {| folder := chars "/d"; name := chars "a"; format_of := NTriples; graph := Some (chars "http://g/"); packed := Some Xz |}.
  repeat split. discriminate.
Qed.
Print Assumptions C109_stream_refuted.

Section Statements.
Context {L : lib}.

Lemma feeds_spec w l : forall r, feeds w l = Some r -> forallb snd r = true -> Forall2 (input_now w) l (List.map fst r).
Proof.
  induction l as [|i l IH]; intros r E S; cbn [feeds] in E.
  - injection E as <-. constructor.
  - destruct (feed w i) as [[x ok]|] eqn:X; [|discriminate]. destruct (feeds w l) as [r'|]; [|discriminate]. injection E as <-.
    cbn in S. apply andb_true_iff in S as [-> S]. constructor; [|now apply IH]. cbn [fst]. unfold feed in X. unfold input_now, holds.
    destruct (packed i) as [p|], (files w (path i)) as [t|]; try discriminate X.
    + destruct (unpack p t) as [u ok] eqn:U. injection X as <- ->. exists u. split; [exists t; auto|reflexivity].
    + injection X as <-. exists t. split; [exists t; auto|reflexivity].
Qed.

(* An index that is made new holds what the inputs hold, in their order. *)
Theorem C109_build_partial : forall w inputs cfg w' d, build_index w inputs cfg = (w', Some d) ->
  index w (d, index_name cfg) = None ->
  exists l, index w' (d, index_name cfg) = Some l /\ Forall2 (input_now w) inputs l.
Proof.
  intros w inputs cfg w' d. unfold build_index. destruct inputs as [|i inputs]; [discriminate|]. remember (i :: inputs) as l eqn:El.
  destruct (index w (resolve cfg (stream l), index_name cfg)) eqn:X; [intros [= <- <-] N; congruence|].
  destruct (1 <? _); [discriminate|]. destruct (negb _); [discriminate|]. destruct (feeds w l) as [r|] eqn:F; [|discriminate].
  destruct (accepts (List.map fst r)); [|discriminate]. destruct (forallb snd r) eqn:S; [|discriminate]. intros [= <- <-] _.
  exists (List.map fst r). split; [|now apply feeds_spec]. cbn [put_index index]. destruct (key_dec _ _); [reflexivity|congruence].
Qed.

(* Making the same index again changes nothing. *)
Theorem C109_again : forall w inputs cfg w' d, build_index w inputs cfg = (w', Some d) ->
  build_index w' inputs cfg = (w', Some d).
Proof.
  intros w inputs cfg w' d. unfold build_index. destruct inputs as [|i inputs]; [discriminate|]. remember (i :: inputs) as l eqn:El.
  destruct (index w (resolve cfg (stream l), index_name cfg)) eqn:X; [intros [= <- <-]; now rewrite X|].
  destruct (1 <? _); [discriminate|]. destruct (negb _); [discriminate|]. destruct (feeds w l) as [r|] eqn:F; [|discriminate].
  destruct (accepts (List.map fst r)); [|discriminate]. destruct (forallb snd r) eqn:S; [|discriminate]. intros [= <- <-].
  cbn [put_index index]. destruct (key_dec _ _); [reflexivity|congruence].
Qed.

(* Files, and indexes that are there, stay as they are. *)
Theorem C109_kept : forall w inputs cfg, let w' := fst (build_index w inputs cfg) in
  (forall p, files w' p = files w p) /\ (forall k l, index w k = Some l -> index w' k = Some l) /\
  (forall d n, n <> index_name cfg -> index w' (d, n) = index w (d, n)).
Proof.
  intros w inputs cfg. unfold build_index. destruct inputs as [|i inputs]; [repeat split; auto|]. remember (i :: inputs) as l eqn:El.
  destruct (index w (resolve cfg (stream l), index_name cfg)) eqn:X; [repeat split; auto|].
  destruct (1 <? _); [repeat split; auto|]. destruct (negb _); [repeat split; auto|]. destruct (feeds w l) as [r|]; [|repeat split; auto].
  destruct (accepts (List.map fst r)); [|repeat split; auto]. cbn [fst put_index index files]. split; [reflexivity|]. split.
  - intros k m H. destruct (key_dec k _) as [->|]; [congruence|exact H].
  - intros d n N. destruct (key_dec _ _) as [E|]; [congruence|reflexivity].
Qed.

(* A failure leaves no index behind when nothing is packed. *)
Theorem C109_failed_partial : forall w inputs cfg w', Forall (fun i => packed i = None) inputs ->
  build_index w inputs cfg = (w', None) -> w' = w.
Proof.
  intros w inputs cfg w' P. unfold build_index. destruct inputs as [|i inputs]; [now intros [= <-]|]. remember (i :: inputs) as l eqn:El in *.
  destruct (index w (resolve cfg (stream l), index_name cfg)); [discriminate|].
  destruct (1 <? _); [now intros [= <-]|]. destruct (negb _); [now intros [= <-]|]. destruct (feeds w l) as [r|] eqn:F; [|now intros [= <-]].
  assert (S : forallb snd r = true).
  { clear -P F. revert r F. induction P as [|j m Pj P IH]; intros r F; cbn [feeds] in F; [injection F as <-; reflexivity|].
    unfold feed in F. rewrite Pj in F. destruct (files w (path j)); [|discriminate]. destruct (feeds w m) as [r'|]; [|discriminate].
    injection F as <-. cbn. now apply IH. }
  rewrite S. destruct (accepts _); [discriminate|]. now intros [= <-].
Qed.

(* Two packed inputs are refused, and one for which no program is there. *)
Theorem C109_refused : forall w inputs cfg, 
  index w (resolve cfg (stream inputs), index_name cfg) = None ->
  (exists a b c i j, inputs = a ++ i :: b ++ j :: c /\ packed i <> None /\ packed j <> None) \/
  (exists i p, In i inputs /\ packed i = Some p /\ tool p = false) ->
  build_index w inputs cfg = (w, None).
Proof.
  intros w inputs cfg N H. unfold build_index. destruct inputs as [|x inputs]; [reflexivity|]. remember (x :: inputs) as l eqn:El in *. rewrite N.
  destruct H as [(a & b & c & i & j & E & Pi & Pj)|(i & p & I & P & T)].
  - assert (K : 1 <? List.length (filter is_packed l) = true); [|now rewrite K].
    assert (Qi : is_packed i = true) by (unfold is_packed; destruct (packed i); congruence).
    assert (Qj : is_packed j = true) by (unfold is_packed; destruct (packed j); congruence).
    rewrite E, filter_app. cbn [filter]. rewrite Qi, filter_app. cbn [filter]. rewrite Qj, app_length. cbn [List.length].
    rewrite app_length. cbn [List.length]. apply Nat.ltb_lt. lia.
  - destruct (1 <? _); [reflexivity|]. assert (K : forallb found l = false); [|now rewrite K].
    destruct (forallb found l) eqn:F; [|reflexivity]. rewrite forallb_forall in F. specialize (F i I). unfold found in F. rewrite P in F. congruence.
Qed.

(* The files written for sources of other formats. *)
Definition written (cdir : text) (s : source) : list text :=
  match skind s with
  | Plain RRdfXml | Plain RN3 => [cdir ++ slash :: sstem s ++ chars ".nt"]
  | Plain RTriG | Plain RJsonLd => [cdir ++ slash :: sstem s ++ chars ".nq"]
  | _ => []
  end.


Lemma inputs_of_spec cdir l : forall w w' is, inputs_of w cdir l = (w', Some is) ->
  NoDup (flat_map (written cdir) l) -> (forall s, In s l -> ~ In (spath s) (flat_map (written cdir) l)) ->
  index w' = index w /\ (forall p, ~ In p (flat_map (written cdir) l) -> files w' p = files w p) /\
  Forall2 (fun s i => forall x, input_now w' i x -> source_now w s x) l is.
Proof.
  induction l as [|s l IH]; intros w w' is E D A; cbn [inputs_of] in E.
  - injection E as <- <-. repeat split. constructor.
  - destruct (input_of w cdir s) as [w1 [i|]] eqn:Ei; [|discriminate].
    destruct (inputs_of w1 cdir l) as [w2 [r|]] eqn:Er; [|discriminate]. injection E as <- <-. cbn [flat_map] in D, A |- *.
    assert (Dl : NoDup (flat_map (written cdir) l)) by (revert D; generalize (written cdir s); intros u; induction u as [|y u IU]; cbn; [auto|intros D; inversion D; auto]).
    assert (Al : forall s, In s l -> ~ In (spath s) (flat_map (written cdir) l)).
    { intros t T H. apply (A t (or_intror T)). apply in_or_app. now right. }
    destruct (IH _ _ _ Er Dl Al) as (I & F & R).
    assert (X : index w1 = index w /\ (forall p, ~ In p (written cdir s) -> files w1 p = files w p) /\
      forall x, input_now w2 i x -> source_now w s x).
    { assert (Ps : files w2 (spath s) = files w1 (spath s)).
      { apply F. intros H. apply (A s (or_introl eq_refl)). apply in_or_app. now right. }
      unfold input_of in Ei. destruct (files w (spath s)) as [t|] eqn:T; [|discriminate].
      unfold source_now. destruct (skind s) as [k|p f] eqn:K.
      - assert (Nat : forall f, native k = Some f -> w1 = w /\ i = {| folder := sfolder s; name := sname s; format_of := f; graph := None; packed := None |}).
        { intros f N. rewrite N in Ei. now injection Ei as <- <-. }
        assert (Oth : native k = None -> exists u, to_native k t = Some u /\ w1 = put_file w (cdir ++ slash :: target_name s k) u /\
          i = {| folder := cdir; name := target_name s k; format_of := target k; graph := None; packed := None |}).
        { intros N. rewrite N in Ei. destruct (to_native k t) as [u|]; [|discriminate]. injection Ei as <- <-. now exists u. }
        assert (Na : forall f, native k = Some f -> index w1 = index w /\ (forall p, ~ In p [] -> files w1 p = files w p) /\
          forall x, input_now w2 i x -> exists u, holds w (spath s) None u /\ x = (f, None, u)).
        { intros f N. destruct (Nat f N) as [-> ->]. split; [reflexivity|]. split; [auto|]. intros x (u & (v & V & ->) & ->). cbn in V |- *.
          change (sfolder s ++ slash :: sname s) with (spath s) in V. rewrite Ps in V. exists v. split; [exists v; auto|reflexivity]. }
        assert (Ot : native k = None -> forall n, n = cdir ++ slash :: target_name s k -> written cdir s = [n] -> index w1 = index w /\ (forall p, ~ In p [n] -> files w1 p = files w p) /\
          forall x, input_now w2 i x -> exists t u, holds w (spath s) None t /\ to_native k t = Some u /\ x = (target k, None, u)).
        { intros N n En Wn. destruct (Oth N) as (u & U & -> & ->). split; [reflexivity|]. split.
          - intros p P. cbn. destruct (text_dec p _) as [->|]; [elim P; left; now rewrite En|reflexivity].
          - intros x (v & (z & V & ->) & ->). cbn in V |- *. unfold path in V. cbn in V.
            assert (Fn : files w2 n = Some u).
            { rewrite F; [cbn; rewrite En; now destruct (text_dec _ _)|]. rewrite Wn in D.
              cbn in D. inversion D. assumption. }
            rewrite <- En, Fn in V. injection V as <-. exists t, u. split; [exists t; auto|auto]. }
        unfold written in Ot |- *. rewrite K in Ot |- *. unfold target_name in Ot.
        destruct k; try (apply Na; reflexivity); apply Ot; reflexivity.
      - unfold written. rewrite K. injection Ei as <- <-. split; [reflexivity|]. split; [auto|]. intros x (u & (v & V & W) & ->). cbn in V, W |- *.
        change (sfolder s ++ slash :: sname s) with (spath s) in V. rewrite Ps in V. exists u. split; [exists v; auto|reflexivity]. }
    destruct X as (I1 & F1 & R1). split; [congruence|]. split.
    + intros p P. rewrite F, F1; [reflexivity| |]; intros H; apply P, in_or_app; auto.
    + constructor; [exact R1|].
      assert (Q : forall t, In t l -> files w1 (spath t) = files w (spath t)).
      { intros t T. apply F1. intros H. apply (A t (or_intror T)). apply in_or_app. now left. }
      clear -R Q. induction R as [|t j l r Rt R IH]; constructor; [|apply IH; intros u U; apply Q; now right].
      intros x X. specialize (Rt x X). specialize (Q t (or_introl eq_refl)). revert Rt. unfold source_now, holds. now rewrite Q.
Qed.

(* An index that is made new from paths holds what the sources say.  Proved where the files written for
   other formats have names of their own. *)
Theorem C109_paths_partial : forall w l cfg w' d, from_paths w l cfg = (w', Some d) ->
  index w (d, index_name cfg) = None ->
  NoDup (flat_map (written (convert_dir cfg l)) l) ->
  (forall s, In s l -> ~ In (spath s) (flat_map (written (convert_dir cfg l)) l)) ->
  exists x, index w' (d, index_name cfg) = Some x /\ Forall2 (source_now w) l x.
Proof.
  intros w l cfg w' d E N D A. unfold from_paths in E. destruct l as [|s l]; [discriminate|].
  destruct (inputs_of w (convert_dir cfg (s :: l)) (s :: l)) as [w1 [is|]] eqn:Ei; [|discriminate].
  destruct (inputs_of_spec _ _ _ _ _ Ei D A) as (I & _ & R).
  destruct (C109_build_partial w1 is cfg w' d E) as (x & X & F); [now rewrite I|].
  exists x. split; [exact X|]. clear -R F. revert x F. induction R as [|t i ts js Rt R IH]; intros x F; inversion F; subst; constructor; auto.
Qed.

End Statements.
Print Assumptions C109_build_partial.
Print Assumptions C109_again.
Print Assumptions C109_kept.
Print Assumptions C109_failed_partial.
Print Assumptions C109_refused.
Print Assumptions C109_paths_partial.

(* A small world: packed files that are not whole are unpacked in part. *)
Definition txt_eqb (a b : text) : bool := if text_dec a b then true else false.
#[local] Instance small : lib :=
  {| cache := chars "/c"; tool := fun _ => true;
     unpack := fun _ t => if txt_eqb t (chars "whole") then (chars "ab", true) else (chars "a", false);
     accepts := fun _ => true; to_native := fun _ t => Some t |}.
Definition disk (l : list (string * string)) : world :=
  {| files := fun p => option_map (fun x => chars (snd x)) (find (fun x => txt_eqb (chars (fst x)) p) l); index := fun _ => None |}.
Definition at_dir (d : string) : config :=
  {| index_name := chars "default"; memory := None; buffer := None; parallel := None; index_dir := Some (chars d) |}.
Definition xz_file (f n : string) : input :=
  {| folder := chars f; name := chars n; format_of := NTriples; graph := None; packed := Some Xz |}.
Definition served (w : world) (d n : text) : option (list text) := option_map (List.map snd) (index w (d, n)).

(* A file that changed is not read again: the index that was made from it before is served. *)
Theorem C109_stale_refuted : exists w cfg i w1 d, build_index w [i] cfg = (w1, Some d) /\
  exists u, u <> chars "old" /\ files (put_file w1 (path i) u) (path i) = Some u /\
  exists w2, build_index (put_file w1 (path i) u) [i] cfg = (w2, Some d) /\ served w2 d (index_name cfg) = Some [chars "old"].
Proof.
  exists (disk [("/d/a.nt", "old")%string]), plain_config, (nt_file "/d" "a.nt"). do 2 eexists. split; [vm_compute; reflexivity|].
  exists (chars "new"). split; [discriminate|]. split; [reflexivity|]. eexists. split; vm_compute; reflexivity.
Qed.

(* In a folder that is given, other inputs get the index of the first ones. *)
Theorem C109_index_dir_refuted : exists w cfg i j w1 d w2, files w (path i) <> files w (path j) /\
  build_index w [i] cfg = (w1, Some d) /\ build_index w1 [j] cfg = (w2, Some d) /\
  option_map (fun t => [t]) (files w (path i)) = served w2 d (index_name cfg).
Proof.
  exists (disk [("/d/a.nt", "one"); ("/d/b.nt", "two")]%string), (at_dir "/i"), (nt_file "/d" "a.nt"), (nt_file "/d" "b.nt"). do 3 eexists.
  split; [vm_compute; discriminate|]. split; [vm_compute; reflexivity|]. split; vm_compute; reflexivity.
Qed.

(* When unpacking breaks off the call fails, but the next one takes the index of the part. *)
Theorem C109_truncated_refuted : exists w cfg i w1 w2 d, build_index w [i] cfg = (w1, None) /\
  build_index w1 [i] cfg = (w2, Some d) /\ served w2 d (index_name cfg) = Some [chars "a"] /\
  ~ exists l, index w2 (d, index_name cfg) = Some l /\ Forall2 (input_now w) [i] l.
Proof.
  exists (disk [("/d/a.nt.xz", "part")%string]), plain_config, (xz_file "/d" "a.nt.xz"). do 3 eexists. split; [vm_compute; reflexivity|].
  split; [vm_compute; reflexivity|]. split; [vm_compute; reflexivity|]. intros (l & _ & F). inversion F as [|? ? ? ? (u & (t & T & U) & _) _]; subst.
  vm_compute in T. injection T as <-. vm_compute in U. discriminate U.
Qed.

(* Of two files of one name in different folders, only the last is read when they are converted. *)
Definition xml_file (f : string) : source := {| sfolder := chars f; sname := chars "data.rdf"; sstem := chars "data"; skind := Plain RRdfXml |}.
Theorem C109_convert_refuted : exists w cfg s t w' d, spath s <> spath t /\ from_paths w [s; t] cfg = (w', Some d) /\
  index w (d, index_name cfg) = None /\ files w (spath s) = Some (chars "one") /\ files w (spath t) = Some (chars "two") /\
  served w' d (index_name cfg) = Some [chars "two"; chars "two"].
Proof.
  exists (disk [("/a/data.rdf", "one"); ("/b/data.rdf", "two")]%string), plain_config, (xml_file "/a"), (xml_file "/b"). do 2 eexists.
  split; [vm_compute; discriminate|]. split; [vm_compute; reflexivity|]. repeat split; vm_compute; reflexivity.
Qed.

(* The hypotheses above are met. *)
Definition quoted : list text := [chars "-i"; chars "it's here"; chars "a""b$c"; chars "/data/x.nt"].
Example C109_met : Forall (fun a => a <> []) quoted /\ words Outside (shell_join quoted) = Some quoted /\
  shell_join quoted = chars "-i 'it'\''s here' 'a""b$c' /data/x.nt".
Proof. split; [repeat constructor; discriminate|]. split; vm_compute; reflexivity. Qed.
Example C109_met_mounts : exists argv binds, colonless (chars "/i") /\
  Forall (fun i => colonless (folder i)) [nt_file "/d" "a.nt"; xz_file "/e" "b.nt.xz"; nt_file "/i" "c.nt"] /\
  build_argv (chars "x") [nt_file "/d" "a.nt"; xz_file "/e" "b.nt.xz"; nt_file "/i" "c.nt"] plain_config (chars "/i") = Some (argv, binds) /\
  binds = [chars "/i:/data:rw"; chars "/d:/inputs/0:ro"].
Proof.
  do 2 eexists. split; [unfold colonless; cbn; intuition discriminate|].
  split; [repeat constructor; unfold colonless; cbn; intuition discriminate|]. split; vm_compute; reflexivity.
Qed.
Example C109_met_stream : Forall ordinary [nt_file "/d" "a.nt"; xz_file "/e" "b.nt.xz"].
Proof. repeat constructor; unfold ordinary; cbn; intuition discriminate. Qed.
Example C109_met_build : exists w' d, let w := disk [("/d/a.nt", "one"); ("/e/b.nt.xz", "whole")]%string in
  build_index w [nt_file "/d" "a.nt"; xz_file "/e" "b.nt.xz"] plain_config = (w', Some d) /\
  index w (d, index_name plain_config) = None /\ served w' d (index_name plain_config) = Some [chars "one"; chars "ab"] /\
  build_index w [nt_file "/d" "none.nt"] plain_config = (w, None).
Proof. do 2 eexists. split; [vm_compute; reflexivity|]. split; [vm_compute; reflexivity|]. split; vm_compute; reflexivity. Qed.
Definition some_sources : list source :=
  [xml_file "/a"; {| sfolder := chars "/a"; sname := chars "b.trig"; sstem := chars "b"; skind := Plain RTriG |};
   {| sfolder := chars "/a"; sname := chars "c.nt.xz"; sstem := chars "c.nt"; skind := Packed Xz NTriples |}].
Example C109_met_paths : exists w' d, let w := disk [("/a/data.rdf", "one"); ("/a/b.trig", "two"); ("/a/c.nt.xz", "whole")]%string in
  from_paths w some_sources plain_config = (w', Some d) /\ index w (d, index_name plain_config) = None /\
  NoDup (flat_map (written (convert_dir plain_config some_sources)) some_sources) /\
  (forall s, In s some_sources -> ~ In (spath s) (flat_map (written (convert_dir plain_config some_sources)) some_sources)) /\
  served w' d (index_name plain_config) = Some [chars "one"; chars "two"; chars "ab"].
Proof.
  do 2 eexists. split; [vm_compute; reflexivity|]. split; [vm_compute; reflexivity|]. split; [vm_compute; repeat constructor; cbn; intuition discriminate|].
  split; [|vm_compute; reflexivity]. intros s I H. vm_compute in I, H. destruct I as [<-|[<-|[<-|[]]]]; vm_compute in H; intuition discriminate.
Qed.
Print Assumptions C109_stale_refuted.
Print Assumptions C109_index_dir_refuted.
Print Assumptions C109_truncated_refuted.
Print Assumptions C109_convert_refuted.
