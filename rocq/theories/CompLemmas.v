(** What the compiler leaves in the schema: a compiled copy of every expression. *)
From Coq Require Import List Arith Bool ZArith Lia Permutation.
Import ListNotations.
From Verif Require Import RbeModel RbeSpec PendingModel TableModel TableSpec TableLemmas GraphModel GraphSpec GraphLemmas
  EngineModel EngineSpec CompModel CompSpec.

Definition act_conds (acts : list nat) : list mcond := map (fun a => CSingle (Some a)) acts.

(** ** induction over syntax trees *)
Section Ind.
  Variable P : ase -> Prop.
  Variable Q : ate -> Prop.
  Hypothesis HOr : forall l, Forall P l -> P (AOr l).
  Hypothesis HAnd : forall l, Forall P l -> P (AAnd l).
  Hypothesis HNot : forall e, P e -> P (ANot e).
  Hypothesis HNode : forall ps, P (ANode ps).
  Hypothesis HShape : forall c x o ext, match o with Some te => Q te | None => True end -> P (AShape c x o ext).
  Hypothesis HExternal : P AExternal.
  Hypothesis HRef : forall r, P (ARef r).
  Hypothesis HEach : forall id l mn mx acts, Forall Q l -> Q (AEach id l mn mx acts).
  Hypothesis HOne : forall id l mn mx acts, Forall Q l -> Q (AOne id l mn mx acts).
  Hypothesis HTc : forall id inv p o mn mx acts, match o with Some e => P e | None => True end -> Q (ATc id inv p o mn mx acts).
  Hypothesis HInc : forall r, Q (AInc r).

  Fixpoint ase_rec' (e : ase) : P e :=
    match e with
    | AOr l => HOr l ((fix go l : Forall P l := match l with [] => Forall_nil P | e :: r => Forall_cons e (ase_rec' e) (go r) end) l)
    | AAnd l => HAnd l ((fix go l : Forall P l := match l with [] => Forall_nil P | e :: r => Forall_cons e (ase_rec' e) (go r) end) l)
    | ANot e => HNot e (ase_rec' e)
    | ANode ps => HNode ps
    | AShape c x o ext => HShape c x o ext (match o with Some te => ate_rec' te | None => Logic.I end)
    | AExternal => HExternal
    | ARef r => HRef r
    end
  with ate_rec' (e : ate) : Q e :=
    match e with
    | AEach id l mn mx acts => HEach id l mn mx acts ((fix go l : Forall Q l := match l with [] => Forall_nil Q | e :: r => Forall_cons e (ate_rec' e) (go r) end) l)
    | AOne id l mn mx acts => HOne id l mn mx acts ((fix go l : Forall Q l := match l with [] => Forall_nil Q | e :: r => Forall_cons e (ate_rec' e) (go r) end) l)
    | ATc id inv p o mn mx acts => HTc id inv p o mn mx acts (match o with Some e => ase_rec' e | None => Logic.I end)
    | AInc r => HInc r
    end.
  Lemma ase_ate_ind : (forall e, P e) /\ (forall e, Q e).
  Proof. split; [exact ase_rec'|exact ate_rec']. Qed.
End Ind.

(** ** compiled copies *)
Section Codes.
  Variable St : nat -> option sexpr.
  Variable M : nat -> option nat.
  Variable L0 : nat.

  Fixpoint codes (i : nat) (e : ase) {struct e} : Prop :=
    match e with
    | AOr l => exists is, St i = Some (EOr is) /\
        (fix go is l {struct l} := match l, is with
                                   | [], [] => True
                                   | e :: r, j :: js => (L0 <= j /\ codes j e) /\ go js r
                                   | _, _ => False
                                   end) is l
    | AAnd l => exists is, St i = Some (EAnd is) /\
        (fix go is l {struct l} := match l, is with
                                   | [], [] => True
                                   | e :: r, j :: js => (L0 <= j /\ codes j e) /\ go js r
                                   | _, _ => False
                                   end) is l
    | ANot e => exists j, St i = Some (ENot j) /\ L0 <= j /\ codes j e
    | ANode ps => St i = Some (ENode (node_cond ps))
    | AExternal => St i = Some EExternal
    | ARef r => exists j, St i = Some (ERef j) /\ M r = Some j
    | AShape closed extra expression extends =>
        exists t ps exts, St i = Some (EShape (mkShape (cnv_closed closed) (cnv_extra extra) t ps exts)) /\
          Forall2 (fun l j => M l = Some j) extends exts /\
          match expression with
          | None => t = t_new /\ ps = []
          | Some te => exists t0 r, t = with_rbe r t0 /\ tbuilt t0 /\ t_open t0 = false /\
              codes_te t0 te 0 (length (t_cond t0)) r /\ forall k, In k ps <-> mentions te k
          end
    end
  with codes_te (t : table) (te : ate) (c0 c1 : nat) (r : rbe_struct) {struct te} : Prop :=
    match te with
    | AEach _ l mn mx _ => exists rs m x, cnv_min mn = Ok m /\ cnv_max mx = Ok x /\ r = mk_card_group (rs_and rs) (mkCard m x) /\
        (fix go l c0 rs {struct l} := match l, rs with
                                      | [], [] => c0 = c1
                                      | e :: l, r :: rs => exists c, codes_te t e c0 c r /\ go l c rs
                                      | _, _ => False
                                      end) l c0 rs
    | AOne _ l mn mx _ => exists rs m x, cnv_min mn = Ok m /\ cnv_max mx = Ok x /\ r = mk_card_group (rs_or rs) (mkCard m x) /\
        (fix go l c0 rs {struct l} := match l, rs with
                                      | [], [] => c0 = c1
                                      | e :: l, r :: rs => exists c, codes_te t e c0 c r /\ go l c rs
                                      | _, _ => False
                                      end) l c0 rs
    | ATc _ inv p v mn mx acts => exists m x c, cnv_min mn = Ok m /\ cnv_max mx = Ok x /\ r = rs_symbol c0 m x /\ c1 = S c0 /\
        component t c0 (predicate_of p inv) (with_acts (act_conds acts) c) /\
        match v with
        | None => c = CSingle None
        | Some e =>
            match e with
            | ANode ps => c = node_cond ps
            | ARef l => exists j, M l = Some j /\ c = CRef j
            | _ => exists j, c = CRef j /\ L0 <= j /\ codes j e
            end
        end
    | AInc _ => False
    end.

  Fixpoint codes_tes (t : table) (l : list ate) (c0 c1 : nat) (rs : list rbe_struct) : Prop :=
    match l, rs with
    | [], [] => c0 = c1
    | e :: l, r :: rs => exists c, codes_te t e c0 c r /\ codes_tes t l c c1 rs
    | _, _ => False
    end.
  Definition codes_ses (is : list nat) (l : list ase) : Prop := Forall2 (fun j e => L0 <= j /\ codes j e) is l.

  Lemma codes_ses_fix is l :
    (fix go is l {struct l} := match l, is with
                               | [], [] => True
                               | e :: r, j :: js => (L0 <= j /\ codes j e) /\ go js r
                               | _, _ => False
                               end) is l <-> codes_ses is l.
  Proof.
    revert is. induction l as [|e l IH]; intros [|j js]; unfold codes_ses.
    - split; [constructor|trivial].
    - split; [intros []|intro H; inversion H].
    - split; [intros []|intro H; inversion H].
    - split; [intros [A B]; constructor; [exact A|apply IH; exact B]|intro H; inversion H; subst; split; [assumption|apply IH; assumption]].
  Qed.
  Lemma codes_or i l : codes i (AOr l) <-> exists is, St i = Some (EOr is) /\ codes_ses is l.
  Proof. cbn [codes]. split; intros (is & A & B); exists is; (split; [exact A|]); apply codes_ses_fix; exact B. Qed.
  Lemma codes_and i l : codes i (AAnd l) <-> exists is, St i = Some (EAnd is) /\ codes_ses is l.
  Proof. cbn [codes]. split; intros (is & A & B); exists is; (split; [exact A|]); apply codes_ses_fix; exact B. Qed.

  Lemma codes_tes_fix t l c0 c1 rs :
    (fix go l c0 rs {struct l} := match l, rs with
                                  | [], [] => c0 = c1
                                  | e :: l, r :: rs => exists c, codes_te t e c0 c r /\ go l c rs
                                  | _, _ => False
                                  end) l c0 rs <-> codes_tes t l c0 c1 rs.
  Proof.
    revert c0 rs. induction l as [|e l IH]; intros c0 [|r rs]; cbn [codes_tes]; try tauto.
    split; intros (c & A & B); exists c; (split; [exact A|]); apply IH; exact B.
  Qed.
  Lemma codes_each t id l mn mx acts c0 c1 r : codes_te t (AEach id l mn mx acts) c0 c1 r <->
    exists rs m x, cnv_min mn = Ok m /\ cnv_max mx = Ok x /\ r = mk_card_group (rs_and rs) (mkCard m x) /\ codes_tes t l c0 c1 rs.
  Proof. cbn [codes_te]. split; intros (rs & m & x & A & B & C & D); exists rs, m, x; (split; [exact A|split; [exact B|split; [exact C|apply codes_tes_fix; exact D]]]). Qed.
  Lemma codes_one t id l mn mx acts c0 c1 r : codes_te t (AOne id l mn mx acts) c0 c1 r <->
    exists rs m x, cnv_min mn = Ok m /\ cnv_max mx = Ok x /\ r = mk_card_group (rs_or rs) (mkCard m x) /\ codes_tes t l c0 c1 rs.
  Proof. cbn [codes_te]. split; intros (rs & m & x & A & B & C & D); exists rs, m, x; (split; [exact A|split; [exact B|split; [exact C|apply codes_tes_fix; exact D]]]). Qed.
End Codes.

(** ** frames *)
Definition size (s : ir) : nat := length (ir_store s).
Definition agree (St : nat -> option sexpr) (s : ir) (a b : nat) : Prop := forall j, a <= j < b -> St j = nth_error (ir_store s) j.
Definition frame (P : nat -> Prop) (s s' : ir) : Prop :=
  ir_labels s' = ir_labels s /\ ir_abstract s' = ir_abstract s /\ size s <= size s' /\
  forall j, j < size s -> ~ P j -> nth_error (ir_store s') j = nth_error (ir_store s) j.
Definition keeps := frame (fun _ => False).

Lemma set_nth_length {A} i (a : A) l : length (set_nth i a l) = length l.
Proof. revert i. induction l as [|x l IH]; intros [|i]; cbn [set_nth length]; auto. Qed.
Lemma set_nth_other {A} i (a : A) l j : j <> i -> nth_error (set_nth i a l) j = nth_error l j.
Proof. revert i j. induction l as [|x l IH]; intros [|i] [|j] N; cbn [set_nth nth_error]; try congruence. apply IH. congruence. Qed.
Lemma set_nth_same {A} i (a : A) l : i < length l -> nth_error (set_nth i a l) i = Some a.
Proof. revert i. induction l as [|x l IH]; intros [|i] N; cbn [set_nth nth_error length] in *; auto; try lia. apply IH. lia. Qed.

Lemma frame_trans P s1 s2 s3 : frame P s1 s2 -> frame P s2 s3 -> frame P s1 s3.
Proof.
  intros (A & B & C & D) (A' & B' & C' & D'). split; [congruence|]. split; [congruence|]. split; [lia|].
  intros j J N. rewrite D'; [|lia|exact N]. apply D; assumption.
Qed.
Lemma frame_weaken P (Q : nat -> Prop) s s' : frame P s s' -> (forall j, j < size s -> P j -> Q j) -> frame Q s s'.
Proof. intros (A & B & C & D) I. split; [exact A|]. split; [exact B|]. split; [exact C|]. intros j J N. apply D; [exact J|]. intro X. exact (N (I j J X)). Qed.
Lemma frame_refl P s : frame P s s.
Proof. split; [reflexivity|]. split; [reflexivity|]. split; [lia|]. reflexivity. Qed.
Lemma frame_replace i e s : frame (eq i) s (replace_shape i e s).
Proof.
  split; [reflexivity|]. split; [reflexivity|]. unfold size, replace_shape. cbn [ir_store]. rewrite set_nth_length. split; [lia|].
  intros j J N. apply set_nth_other. congruence.
Qed.
Lemma frame_new s : keeps s (snd (new_index s)).
Proof.
  split; [reflexivity|]. split; [reflexivity|]. unfold size, new_index. cbn [snd ir_store]. rewrite app_length. cbn. split; [lia|].
  intros j J _. apply nth_error_app1. exact J.
Qed.
Lemma size_new s : size (snd (new_index s)) = S (size s).
Proof. unfold size, new_index. cbn [snd ir_store]. rewrite app_length. cbn. lia. Qed.
Lemma size_replace i e s : size (replace_shape i e s) = size s.
Proof. unfold size, replace_shape. cbn [ir_store]. apply set_nth_length. Qed.
Lemma replace_at i e s : i < size s -> nth_error (ir_store (replace_shape i e s)) i = Some e.
Proof. intro H. apply set_nth_same. exact H. Qed.

(** a final store that agrees with a later state agrees with an earlier one where it is framed *)
Lemma agree_back P St s s' a b : frame P s s' -> agree St s' a b -> (forall j, a <= j < size s -> ~ P j) ->
  forall a' b', a <= a' -> b' <= b -> b' <= size s -> agree St s a' b'.
Proof. intros (_ & _ & _ & D) A N a' b' H1 H2 H3 j J. rewrite (A j) by lia. apply D; [lia|]. apply N. lia. Qed.

Lemma bind_ok {A B} (r : res A) (k : A -> res B) b : bind r k = Ok b -> exists a, r = Ok a /\ k a = Ok b.
Proof. destruct r as [a| |]; cbn [bind]; [|discriminate|discriminate]. intro H. exists a. auto. Qed.

Ltac unbind H x E := apply bind_ok in H; destruct H as (x & E & H).

(** ** tables *)
Definition tgrows (t t' : table) : Prop :=
  length (t_cond t) <= length (t_cond t') /\ t_open t' = t_open t /\
  forall c k cd, component t c k cd -> component t' c k cd.
Lemma tgrows_refl t : tgrows t t.
Proof. split; [lia|]. split; auto. Qed.
Lemma tgrows_trans t1 t2 t3 : tgrows t1 t2 -> tgrows t2 t3 -> tgrows t1 t3.
Proof. intros (A & B & C) (A' & B' & C'). split; [lia|]. split; [congruence|]. auto. Qed.
Lemma tbuilt_lengths t : tbuilt t -> length (t_ckey t) = length (t_cond t).
Proof. induction 1 as [|k c t B IH|r t B IH]; [reflexivity| |exact IH]. cbn. rewrite !app_length. cbn. lia. Qed.
Lemma add_component_grows k cd t : tbuilt t -> tgrows t (snd (add_component k cd t)) /\
  component (snd (add_component k cd t)) (length (t_cond t)) k cd /\ length (t_cond (snd (add_component k cd t))) = S (length (t_cond t)).
Proof.
  intro B. pose proof (tbuilt_lengths t B) as L. unfold tgrows, component. cbn. rewrite app_length. cbn. split; [split; [lia|split; [reflexivity|]]|].
  - intros c k' cd' [X Y]. split; rewrite nth_error_app1; try assumption; apply nth_error_Some; congruence.
  - split; [|lia]. split; [rewrite <- L|]; (rewrite nth_error_app2; [rewrite Nat.sub_diag; reflexivity|auto]).
Qed.

(** ** predicates *)
Lemma mentions_each id l mn mx acts k : mentions (AEach id l mn mx acts) k <-> exists e, In e l /\ mentions e k.
Proof. cbn [mentions]. induction l as [|e l IH]; [split; [intros []|intros (e & [] & _)]|]. rewrite IH. split.
  - intros [H|(e' & I & H)]; [exists e|exists e']; split; auto; [left; reflexivity|right; exact I].
  - intros (e' & [->|I] & H); [left; exact H|right; exists e'; auto].
Qed.
Lemma mentions_one id l mn mx acts k : mentions (AOne id l mn mx acts) k <-> exists e, In e l /\ mentions e k.
Proof. exact (mentions_each id l mn mx acts k). Qed.

Lemma each_unit {A B} (G : A -> res B) l pss u : each (fun e (_ : unit) => do ps <- G e; Ok (ps, tt)) l tt = Ok (pss, u) ->
  Forall2 (fun e ps => G e = Ok ps) l pss.
Proof.
  revert pss. induction l as [|e l IH]; intros pss H; cbn [each] in H; [injection H as <- <-; constructor|].
  unbind H x E. destruct x as [b []]. unbind E ps E1. injection E as ->. unbind H y E2. destruct y as [bs []]. injection H as <- <-.
  constructor; [exact E1|exact (IH _ E2)].
Qed.

(** ** the compiler *)
Definition inner (known : nat -> bool) (lab : list (nat * ate)) (f : nat) (e : ase) (s : ir) : res (nat * ir) :=
  let (i, s) := new_index s in do (se, s) <- compile_se known lab f e i s; Ok (i, replace_shape i se s).

Lemma compile_se_S known lab f e idx s : compile_se known lab (S f) e idx s =
  match e with
  | ARef r => do i <- get_idx r s; Ok (ERef i, s)
  | AOr l => do (is, s) <- each (inner known lab f) l s; Ok (EOr is, replace_shape idx (EOr is) s)
  | AAnd l => do (is, s) <- each (inner known lab f) l s; Ok (EAnd is, replace_shape idx (EAnd is) s)
  | ANot e => do (i, s) <- inner known lab f e s; Ok (ENot i, replace_shape idx (ENot i) s)
  | AShape closed extra expression extends =>
      do (t, s) <- match expression with
                   | None => Ok (t_new, s)
                   | Some te => do (r, (t, s)) <- te2rbe known lab f te [] (t_new, s); Ok (with_rbe r t, s)
                   end;
      do ps <- match expression with None => Ok [] | Some te => get_preds lab f te [] end;
      do (ext, _) <- each (fun l (_ : unit) => do i <- get_idx l s; Ok (i, tt)) extends tt;
      Ok (EShape (mkShape (cnv_closed closed) (cnv_extra extra) t ps ext), s)
  | ANode ps => Ok (ENode (node_cond ps), s)
  | AExternal => Ok (EExternal, s)
  end.
Proof. reflexivity. Qed.

Definition bare_cond (known : nat -> bool) (lab : list (nat * ate)) (f : nat) (v : option ase) (s : ir) : res (mcond * ir) :=
  match v with
  | None => Ok (CSingle None, s)
  | Some e =>
      match e with
      | ANode ps => Ok (node_cond ps, s)
      | ARef r => do i <- get_idx r s; Ok (CRef i, s)
      | AShape _ _ _ _ => do (i, s) <- inner known lab f e s; Ok (CRef i, s)
      | AAnd l => do (is, s) <- each (inner known lab f) l s;
                  let (i, s) := new_index s in Ok (CRef i, replace_shape i (EAnd is) s)
      | AOr l => do (is, s) <- each (inner known lab f) l s;
                 let (i, s) := new_index s in Ok (CRef i, replace_shape i (EOr is) s)
      | ANot e => do (j, s) <- inner known lab f e s;
                  let (i, s) := new_index s in Ok (CRef i, replace_shape i (ENot j) s)
      | AExternal => let (i, s) := new_index s in Ok (CRef i, replace_shape i EExternal s)
      end
  end.
Lemma value_cond_S known lab f v acts s : value_cond known lab (S f) v acts s =
  do acts <- sem_acts_to_conds known acts; do (c, s) <- bare_cond known lab f v s; Ok (with_acts acts c, s).
Proof. reflexivity. Qed.

Section Compile.
  Variable known : nat -> bool.
  Variable lab : list (nat * ate).
  Variable M : nat -> option nat.
  Variable L0 : nat.
  Let L := fun r e => lookup r lab = Some e.

  Definition named (s : ir) : Prop := forall l, lookup l (ir_labels s) = M l.
  Lemma named_frame P s s' : frame P s s' -> named s -> named s'.
  Proof. intros (A & _) N l. rewrite A. apply N. Qed.
  Lemma get_idx_named l s i : named s -> get_idx l s = Ok i -> M l = Some i.
  Proof. intros N. unfold get_idx. rewrite N. destruct (M l); [|discriminate]. intro H. injection H as <-. reflexivity. Qed.

  (** the indices made between two states hold compiled copies of expressions of a kind *)
  Definition covers (St : nat -> option sexpr) (s s' : ir) (X : ase -> Prop) : Prop :=
    forall j, size s <= j < size s' -> exists x, X x /\ codes St M L0 j x.
  Lemma covers_weaken St s s' (X Y : ase -> Prop) : covers St s s' X -> (forall x, X x -> Y x) -> covers St s s' Y.
  Proof. intros C I j J. destruct (C j J) as (x & A & B). exists x. auto. Qed.
  Lemma covers_trans St s1 s2 s3 X : covers St s1 s2 X -> covers St s2 s3 X -> covers St s1 s3 X.
  Proof. intros C1 C2 j J. destruct (Nat.lt_ge_cases j (size s2)); [apply C1|apply C2]; lia. Qed.
  Lemma covers_none St s X : covers St s s X.
  Proof. intros j J. lia. Qed.

  Definition se_ok (e : ase) (idx : nat) (s : ir) (se : sexpr) (s' : ir) : Prop :=
    frame (eq idx) s s' /\
    exists e', unfold_se L e e' /\ forall St, agree St s' (size s) (size s') ->
      (St idx = Some se -> codes St M L0 idx e') /\ covers St s s' (fun x => within x e').
  Definition inner_ok (e : ase) (s : ir) (i : nat) (s' : ir) : Prop :=
    keeps s s' /\ i = size s /\ size s < size s' /\
    exists e', unfold_se L e e' /\ forall St, agree St s' (size s) (size s') -> codes St M L0 i e' /\ covers St s s' (fun x => within x e').

  (** a value expression *)
  Definition cond_codes (St : nat -> option sexpr) (v : option ase) (c : mcond) : Prop :=
    match v with
    | None => c = CSingle None
    | Some e =>
        match e with
        | ANode ps => c = node_cond ps
        | ARef l => exists j, M l = Some j /\ c = CRef j
        | _ => exists j, c = CRef j /\ L0 <= j /\ codes St M L0 j e
        end
    end.
  Definition unfold_value (v v' : option ase) : Prop :=
    match v, v' with None, None => True | Some e, Some e' => unfold_se L e e' | _, _ => False end.

  Definition within_value (v : option ase) (x : ase) : Prop := match v with Some e => within x e | None => False end.
  Definition value_ok (v : option ase) (acts : list nat) (s : ir) (c : mcond) (s' : ir) : Prop :=
    keeps s s' /\ exists v' c0, unfold_value v v' /\ c = with_acts (act_conds acts) c0 /\
      forall St, agree St s' (size s) (size s') -> cond_codes St v' c0 /\ covers St s s' (within_value v').
  Definition te_ok (e : ate) (visited : list nat) (t : table) (s : ir) (r : rbe_struct) (t' : table) (s' : ir) : Prop :=
    keeps s s' /\ tgrows t t' /\ tbuilt t' /\
    exists e', unfold_te L e e' /\
      (forall St tf, agree St s' (size s) (size s') -> tgrows t' tf ->
         codes_te St M L0 tf e' (length (t_cond t)) (length (t_cond t')) r /\ covers St s s' (fun x => within_te x e')) /\
      forall f ps, get_preds lab f e visited = Ok ps -> forall k, In k ps <-> mentions e' k.

  Section Step.
    Variable f : nat.
    Hypothesis IHse : forall e idx s se s', compile_se known lab f e idx s = Ok (se, s') -> named s -> L0 <= size s -> idx < size s ->
      se_ok e idx s se s'.

    Lemma new_spec s : exists s1, new_index s = (size s, s1) /\ keeps s s1 /\ size s1 = S (size s).
    Proof. exists (snd (new_index s)). split; [reflexivity|]. split; [apply frame_new|apply size_new]. Qed.

    Lemma fresh_frame s s1 s2 e : keeps s s1 -> size s1 = S (size s) -> frame (eq (size s)) s1 s2 ->
      keeps s (replace_shape (size s) e s2).
    Proof.
      intros K Z F. apply (frame_weaken (eq (size s))); [|intros; lia]. apply (frame_trans _ _ s1).
      - apply (frame_weaken (fun _ => False)); [exact K|intros j J []].
      - apply (frame_trans _ _ s2); [exact F|apply frame_replace].
    Qed.

    Lemma inner_spec e s i s' : inner known lab f e s = Ok (i, s') -> named s -> L0 <= size s -> inner_ok e s i s'.
    Proof.
      unfold inner. destruct (new_spec s) as (s1 & -> & FN & SN).
      intros H NM LE. unbind H x E. destruct x as [se s2]. injection H as <- <-.
      destruct (IHse _ _ _ _ _ E (named_frame _ _ _ FN NM)) as (FR & e' & U & C); [lia|lia|].
      pose proof FR as (_ & _ & SZ & _). split; [|split; [reflexivity|split; [rewrite size_replace; lia|]]].
      - exact (fresh_frame s s1 s2 se FN SN FR).
      - exists e'. split; [exact U|]. intros St A. rewrite size_replace in A. destruct (C St) as [C1 C2].
        + intros j J. rewrite (A j) by lia. unfold replace_shape. cbn [ir_store]. apply set_nth_other. lia.
        + assert (C0 : codes St M L0 (size s) e') by (apply C1; rewrite (A (size s)) by lia; apply replace_at; lia).
          split; [exact C0|]. intros j J. rewrite size_replace in J. destruct (Nat.eq_dec j (size s)) as [->|N].
          * exists e'. split; [constructor|exact C0].
          * apply C2. lia.
    Qed.

    Lemma inners_spec l : forall s is s', each (inner known lab f) l s = Ok (is, s') -> named s -> L0 <= size s ->
      keeps s s' /\ exists l', unfold_ses L l l' /\ forall St, agree St s' (size s) (size s') ->
        codes_ses St M L0 is l' /\ covers St s s' (fun x => exists e, In e l' /\ within x e).
    Proof.
      induction l as [|e l IH]; intros s is s' H NM LE; cbn [each] in H.
      - injection H as <- <-. split; [apply frame_refl|]. exists []. split; [constructor|]. intros. split; [constructor|apply covers_none].
      - unbind H x E. destruct x as [i s1]. unbind H y E2. destruct y as [js s2]. injection H as <- <-.
        destruct (inner_spec _ _ _ _ E NM LE) as (K & -> & SZ & e' & U & C).
        destruct (IH _ _ _ E2 (named_frame _ _ _ K NM)) as (K2 & l' & U2 & C2); [lia|]. pose proof K2 as (_ & _ & SZ2 & _).
        split; [exact (frame_trans _ _ _ _ K K2)|]. exists (e' :: l'). split; [constructor; assumption|]. intros St A.
        destruct (C St) as [D1 D2]; [apply (agree_back (fun _ => False) St s1 s2 (size s) (size s2)); auto; lia|].
        destruct (C2 St) as [D3 D4]; [intros j J; apply A; lia|].
        split; [constructor; [split; assumption|exact D3]|]. apply (covers_trans _ _ s1).
        + apply (covers_weaken _ _ _ _ _ D2). intros x W. exists e'. split; [left; reflexivity|exact W].
        + apply (covers_weaken _ _ _ _ _ D4). intros x (e0 & I & W). exists e0. split; [right; exact I|exact W].
    Qed.

    (** the index made last holds an expression over indices made before *)
    Lemma last_spec s0 s e (C : (nat -> option sexpr) -> Prop) : keeps s0 s -> (forall St, agree St s (size s0) (size s) -> C St) ->
      exists s', (let (i, s1) := new_index s in Ok (CRef i, replace_shape i e s1)) = Ok (CRef (size s), s') /\ keeps s0 s' /\ size s0 <= size s /\
        size s' = S (size s) /\ forall St, agree St s' (size s0) (size s') -> C St /\ St (size s) = Some e.
    Proof.
      intros K H. destruct (new_spec s) as (s1 & -> & FN & SN). exists (replace_shape (size s) e s1). split; [reflexivity|].
      pose proof (fresh_frame s s1 s1 e FN SN (frame_refl _ _)) as F. pose proof K as (_ & _ & Z & _).
      split; [exact (frame_trans _ _ _ _ K F)|]. split; [exact Z|].
      split; [rewrite size_replace; exact SN|]. intros St A. rewrite size_replace in A. split.
      - apply H. apply (agree_back (fun _ => False) St s (replace_shape (size s) e s1) (size s0) (size s1)); auto; try lia.
      - rewrite (A (size s)) by lia. apply replace_at. lia.
    Qed.

    (** coverage with the index made last *)
    Lemma covers_last St s s1 s2 X x : covers St s s1 X -> size s2 = S (size s1) -> X x -> codes St M L0 (size s1) x -> covers St s s2 X.
    Proof. intros C Z A B j J. destruct (Nat.eq_dec j (size s1)) as [->|N]; [exists x; auto|]. apply C. lia. Qed.

    Lemma acts_ok acts cs : sem_acts_to_conds known acts = Ok cs -> cs = act_conds acts.
    Proof. unfold sem_acts_to_conds. destruct (forallb known acts); [|discriminate]. intro H. injection H as <-. reflexivity. Qed.

    Lemma bare_spec v s c s' : bare_cond known lab f v s = Ok (c, s') -> named s -> L0 <= size s ->
      keeps s s' /\ exists v', unfold_value v v' /\ forall St, agree St s' (size s) (size s') ->
        cond_codes St v' c /\ covers St s s' (within_value v').
    Proof.
      intros H NM LE. destruct v as [e|].
      2:{ injection H as <- <-. split; [apply frame_refl|]. exists None. split; [exact Logic.I|]. intros. split; [reflexivity|apply covers_none]. }
      destruct e as [l|l|e|ps|closed extra o ext| |r]; cbn [bare_cond] in H.
      - unbind H x E. destruct x as [is s1]. destruct (inners_spec _ _ _ _ E NM LE) as (K & l' & U & C).
        destruct (last_spec s s1 (EOr is) _ K C) as (s2 & X & K2 & Z & Z2 & C2). rewrite X in H. injection H as <- <-.
        split; [exact K2|]. exists (Some (AOr l')). split; [constructor; exact U|]. intros St A. destruct (C2 St A) as [[D1 D3] D2].
        assert (CC : codes St M L0 (size s1) (AOr l')) by (apply codes_or; exists is; split; assumption).
        split; [exists (size s1); split; [reflexivity|split; [lia|exact CC]]|].
        apply (covers_last St s s1 s2 _ (AOr l')); [|exact Z2|apply within_refl|exact CC].
        apply (covers_weaken _ _ _ _ _ D3). intros x (e0 & I & W). exact (within_or l' x e0 I W).
      - unbind H x E. destruct x as [is s1]. destruct (inners_spec _ _ _ _ E NM LE) as (K & l' & U & C).
        destruct (last_spec s s1 (EAnd is) _ K C) as (s2 & X & K2 & Z & Z2 & C2). rewrite X in H. injection H as <- <-.
        split; [exact K2|]. exists (Some (AAnd l')). split; [constructor; exact U|]. intros St A. destruct (C2 St A) as [[D1 D3] D2].
        assert (CC : codes St M L0 (size s1) (AAnd l')) by (apply codes_and; exists is; split; assumption).
        split; [exists (size s1); split; [reflexivity|split; [lia|exact CC]]|].
        apply (covers_last St s s1 s2 _ (AAnd l')); [|exact Z2|apply within_refl|exact CC].
        apply (covers_weaken _ _ _ _ _ D3). intros x (e0 & I & W). exact (within_and l' x e0 I W).
      - unbind H x E. destruct x as [i s1]. destruct (inner_spec _ _ _ _ E NM LE) as (K & -> & SZ & e' & U & C).
        destruct (last_spec s s1 (ENot (size s)) _ K C) as (s2 & X & K2 & Z & Z2 & C2). rewrite X in H. injection H as <- <-.
        split; [exact K2|]. exists (Some (ANot e')). split; [constructor; exact U|]. intros St A. destruct (C2 St A) as [[D1 D3] D2].
        assert (CC : codes St M L0 (size s1) (ANot e')) by (cbn [codes]; exists (size s); auto).
        split; [exists (size s1); split; [reflexivity|split; [lia|exact CC]]|].
        apply (covers_last St s s1 s2 _ (ANot e')); [|exact Z2|apply within_refl|exact CC].
        apply (covers_weaken _ _ _ _ _ D3). intros x W. exact (within_not x e' W).
      - injection H as <- <-. split; [apply frame_refl|]. exists (Some (ANode ps)). split; [constructor|]. intros. split; [reflexivity|apply covers_none].
      - unbind H x E. destruct x as [i s1]. injection H as <- <-. destruct (inner_spec _ _ _ _ E NM LE) as (K & -> & SZ & e' & U & C).
        split; [exact K|]. exists (Some e'). split; [exact U|]. intros St A. destruct (C St A) as [C1 C2]. split; [|exact C2].
        inversion U; subst; cbn [cond_codes]; exists (size s); auto.
      - destruct (last_spec s s EExternal (fun _ => True) (frame_refl _ _)) as (s2 & X & K2 & Z & Z2 & C2); [trivial|]. rewrite X in H. injection H as <- <-.
        split; [exact K2|]. exists (Some AExternal). split; [constructor|]. intros St A. destruct (C2 St A) as [_ D2].
        split; [exists (size s); split; [reflexivity|split; [exact LE|exact D2]]|].
        apply (covers_last St s s s2 _ AExternal); [apply covers_none|exact Z2|apply within_refl|exact D2].
      - unbind H i E. injection H as <- <-. split; [apply frame_refl|]. exists (Some (ARef r)). split; [constructor|].
        intros St A. split; [|apply covers_none]. exists i. split; [exact (get_idx_named _ _ _ NM E)|reflexivity].
    Qed.
  End Step.

  Lemma preds_list f l visited pss (l' : list ate) :
    Forall2 (fun e ps => get_preds lab f e visited = Ok ps) l pss ->
    Forall2 (fun e e' => forall f ps, get_preds lab f e visited = Ok ps -> forall k, In k ps <-> mentions e' k) l l' ->
    forall k, In k (concat pss) <-> exists e, In e l' /\ mentions e k.
  Proof.
    intros F. revert l'. induction F as [|e ps l pss E F IH]; intros l' G k; inversion G as [|? e' ? l'' X G']; subst; cbn [concat].
    - split; [intros []|intros (e & [] & _)].
    - rewrite in_app_iff, (X f ps E k), (IH _ G' k). split.
      + intros [H|(x & I & H)]; [exists e'|exists x]; split; auto; [left; reflexivity|right; exact I].
      + intros (x & [<-|I] & H); [left; exact H|right; exists x; auto].
  Qed.

  Lemma extends_spec s l is u : each (fun l (_ : unit) => do i <- get_idx l s; Ok (i, tt)) l tt = Ok (is, u) -> named s ->
    Forall2 (fun l j => M l = Some j) l is.
  Proof.
    intros H N. apply (each_unit (fun l => get_idx l s)) in H. induction H as [|a i l is E F IH]; constructor; [|exact IH].
    exact (get_idx_named _ _ _ N E).
  Qed.

  (** the members of a group *)
  Section Group.
    Variable f : nat.
    Variable visited : list nat.
    Hypothesis IHte : forall e t s r t' s', te2rbe known lab f e visited (t, s) = Ok (r, (t', s')) -> tbuilt t -> named s -> L0 <= size s ->
       te_ok e visited t s r t' s'.

    Lemma members_spec l : forall t s rs t' s', each (fun e ts => te2rbe known lab f e visited ts) l (t, s) = Ok (rs, (t', s')) ->
      tbuilt t -> named s -> L0 <= size s ->
      keeps s s' /\ tgrows t t' /\ tbuilt t' /\
      exists l', unfold_tes L l l' /\
        (forall St tf, agree St s' (size s) (size s') -> tgrows t' tf ->
           codes_tes St M L0 tf l' (length (t_cond t)) (length (t_cond t')) rs /\ covers St s s' (fun x => exists e, In e l' /\ within_te x e)) /\
        Forall2 (fun e e' => forall f ps, get_preds lab f e visited = Ok ps -> forall k, In k ps <-> mentions e' k) l l'.
    Proof.
      induction l as [|e l IH]; intros t s rs t' s' H B NM LE; cbn [each] in H.
      - injection H as <- <- <-. split; [apply frame_refl|]. split; [apply tgrows_refl|]. split; [exact B|]. exists [].
        split; [constructor|]. split; [|constructor]. intros. split; [reflexivity|apply covers_none].
      - unbind H x E. destruct x as [r [t1 s1]]. unbind H y E2. destruct y as [rs2 [t2 s2]]. injection H as <- <- <-.
        destruct (IHte _ _ _ _ _ _ E B NM LE) as (K & G & B1 & e' & U & C & P). pose proof K as (_ & _ & SZ & _).
        destruct (IH _ _ _ _ _ E2 B1 (named_frame _ _ _ K NM)) as (K2 & G2 & B2 & l' & U2 & C2 & P2); [lia|]. pose proof K2 as (_ & _ & SZ2 & _).
        split; [exact (frame_trans _ _ _ _ K K2)|]. split; [exact (tgrows_trans _ _ _ G G2)|]. split; [exact B2|].
        exists (e' :: l'). split; [constructor; assumption|]. split; [|constructor; assumption].
        intros St tf A TG.
        destruct (C St tf) as [D1 D2]; [apply (agree_back (fun _ => False) St s1 s2 (size s) (size s2)); auto; lia|exact (tgrows_trans _ _ _ G2 TG)|].
        destruct (C2 St tf) as [D3 D4]; [intros j J; apply A; lia|exact TG|].
        split; [cbn [codes_tes]; exists (length (t_cond t1)); split; assumption|]. apply (covers_trans _ _ s1).
        + apply (covers_weaken _ _ _ _ _ D2). intros x W. exists e'. split; [left; reflexivity|exact W].
        + apply (covers_weaken _ _ _ _ _ D4). intros x (e0 & I & W). exists e0. split; [right; exact I|exact W].
    Qed.
  End Group.

  Lemma compile_spec f :
    (forall e idx s se s', compile_se known lab f e idx s = Ok (se, s') -> named s -> L0 <= size s -> idx < size s -> se_ok e idx s se s') /\
    (forall v acts s c s', value_cond known lab f v acts s = Ok (c, s') -> named s -> L0 <= size s -> value_ok v acts s c s') /\
    (forall e visited t s r t' s', te2rbe known lab f e visited (t, s) = Ok (r, (t', s')) -> tbuilt t -> named s -> L0 <= size s ->
       te_ok e visited t s r t' s').
  Proof.
    induction f as [|f (IHse & IHv & IHte)]; [split; [|split]; intros; discriminate|].
    assert (BACK : forall St s s1 idx e, size s <= size s1 -> idx < size s ->
      agree St (replace_shape idx e s1) (size s) (size (replace_shape idx e s1)) -> agree St s1 (size s) (size s1)).
    { intros St s s1 idx e Z I A. rewrite size_replace in A. intros j J. rewrite (A j J). unfold replace_shape. cbn [ir_store].
      apply set_nth_other. lia. }
    assert (FR : forall s s1 idx e, keeps s s1 -> frame (eq idx) s (replace_shape idx e s1)).
    { intros s s1 idx e K. apply (frame_trans _ _ s1); [apply (frame_weaken _ _ _ _ K); intros j _ []|apply frame_replace]. }
    split; [|split].
    - intros e idx s se s' H NM LE IX. rewrite compile_se_S in H.
      destruct e as [l|l|e|ps|closed extra o ext| |r].
      + unbind H x E. destruct x as [is s1]. injection H as <- <-. destruct (inners_spec f IHse _ _ _ _ E NM LE) as (K & l' & U & C).
        pose proof K as (_ & _ & Z & _). split; [exact (FR _ _ _ _ K)|].
        exists (AOr l'). split; [constructor; exact U|]. intros St A. destruct (C St (BACK _ _ _ _ _ Z IX A)) as [D1 D2].
        split; [intro I; apply codes_or; exists is; split; [exact I|exact D1]|]. intros j J. rewrite size_replace in J.
        destruct (D2 j J) as (x & (e0 & I & W) & X). exists x. split; [exact (within_or l' x e0 I W)|exact X].
      + unbind H x E. destruct x as [is s1]. injection H as <- <-. destruct (inners_spec f IHse _ _ _ _ E NM LE) as (K & l' & U & C).
        pose proof K as (_ & _ & Z & _). split; [exact (FR _ _ _ _ K)|].
        exists (AAnd l'). split; [constructor; exact U|]. intros St A. destruct (C St (BACK _ _ _ _ _ Z IX A)) as [D1 D2].
        split; [intro I; apply codes_and; exists is; split; [exact I|exact D1]|]. intros j J. rewrite size_replace in J.
        destruct (D2 j J) as (x & (e0 & I & W) & X). exists x. split; [exact (within_and l' x e0 I W)|exact X].
      + unbind H x E. destruct x as [i s1]. injection H as <- <-. destruct (inner_spec f IHse _ _ _ _ E NM LE) as (K & -> & SZ & e' & U & C).
        pose proof K as (_ & _ & Z & _). split; [exact (FR _ _ _ _ K)|].
        exists (ANot e'). split; [constructor; exact U|]. intros St A. destruct (C St (BACK _ _ _ _ _ Z IX A)) as [D1 D2].
        split; [intro I; cbn [codes]; exists (size s); split; [exact I|split; [exact LE|exact D1]]|]. intros j J. rewrite size_replace in J.
        destruct (D2 j J) as (x & W & X). exists x. split; [exact (within_not x e' W)|exact X].
      + injection H as <- <-. split; [apply frame_refl|]. exists (ANode ps). split; [constructor|]. intros St A. split; [intro I; exact I|apply covers_none].
      + unbind H x E. destruct x as [t s1]. unbind H ps E2. unbind H y E3. destruct y as [is u]. injection H as <- <-.
        destruct o as [te|].
        * unbind E z E4. destruct z as [r [t0 s2]]. injection E as <- <-.
          destruct (IHte _ _ _ _ _ _ _ E4 tbuilt_new NM LE) as (K & G & B & te' & U & C & P).
          split; [apply (frame_weaken _ _ _ _ K); intros j _ []|]. exists (AShape closed extra (Some te') ext).
          split; [constructor; exact U|]. intros St A. destruct (C St t0 A (tgrows_refl t0)) as [D1 D2].
          split; [intro I|apply (covers_weaken _ _ _ _ _ D2); intros x W; constructor; exact W].
          cbn [codes]. exists (with_rbe r t0), ps, is. split; [exact I|].
          split; [exact (extends_spec _ _ _ _ E3 (named_frame _ _ _ K NM))|]. exists t0, r. split; [reflexivity|]. split; [exact B|].
          split; [exact (proj1 (proj2 G))|]. split; [exact D1|exact (P f ps E2)].
        * injection E as <- <-. injection E2 as <-. split; [apply frame_refl|]. exists (AShape closed extra None ext). split; [constructor|].
          intros St A. split; [intro I|apply covers_none]. cbn [codes]. exists t_new, [], is. split; [exact I|]. split; [exact (extends_spec _ _ _ _ E3 NM)|]. split; reflexivity.
      + injection H as <- <-. split; [apply frame_refl|]. exists AExternal. split; [constructor|]. intros St A. split; [intro I; exact I|apply covers_none].
      + unbind H i E. injection H as <- <-. split; [apply frame_refl|]. exists (ARef r). split; [constructor|]. intros St A. split; [intro I|apply covers_none].
        exists i. split; [exact I|exact (get_idx_named _ _ _ NM E)].
    - intros v acts s c s' H NM LE. rewrite value_cond_S in H. unbind H cs E. apply acts_ok in E. subst cs.
      unbind H x E. destruct x as [c0 s1]. injection H as <- <-.
      destruct (bare_spec f IHse v s c0 s1 E NM LE) as (K & v' & U & C). split; [exact K|]. exists v', c0. auto.
    - intros e visited t s r t' s' H B NM LE. cbn [te2rbe] in H. destruct e as [id l mn mx acts|id l mn mx acts|id inv p v mn mx acts|l].
      + unbind H x E. destruct x as [rs [t1 s1]]. unbind H m E1. unbind H x E2. unbind H cs E3. injection H as <- <- <-.
        destruct (members_spec f visited (fun e => IHte e visited) l _ _ _ _ _ E B NM LE) as (K & G & B1 & l' & U & C & P).
        split; [exact K|]. split; [exact G|]. split; [exact B1|]. exists (AEach id l' mn mx acts). split; [constructor; exact U|]. split.
        * intros St tf A TG. destruct (C St tf A TG) as [D1 D2]. split.
          -- apply codes_each. exists rs, m, x. split; [exact E1|]. split; [exact E2|]. split; [reflexivity|exact D1].
          -- apply (covers_weaken _ _ _ _ _ D2). intros y (e0 & I & W). exact (within_each y id l' e0 mn mx acts I W).
        * intros [|f'] ps X; [discriminate|]. cbn [get_preds] in X. unbind X y Y. destruct y as [pss u]. injection X as <-.
          apply (each_unit (fun e => get_preds lab f' e visited)) in Y. intro k. rewrite mentions_each. exact (preds_list f' l visited pss l' Y P k).
      + unbind H x E. destruct x as [rs [t1 s1]]. unbind H m E1. unbind H x E2. injection H as <- <- <-.
        destruct (members_spec f visited (fun e => IHte e visited) l _ _ _ _ _ E B NM LE) as (K & G & B1 & l' & U & C & P).
        split; [exact K|]. split; [exact G|]. split; [exact B1|]. exists (AOne id l' mn mx acts). split; [constructor; exact U|]. split.
        * intros St tf A TG. destruct (C St tf A TG) as [D1 D2]. split.
          -- apply codes_one. exists rs, m, x. split; [exact E1|]. split; [exact E2|]. split; [reflexivity|exact D1].
          -- apply (covers_weaken _ _ _ _ _ D2). intros y (e0 & I & W). exact (within_one y id l' e0 mn mx acts I W).
        * intros [|f'] ps X; [discriminate|]. cbn [get_preds] in X. unbind X y Y. destruct y as [pss u]. injection X as <-.
          apply (each_unit (fun e => get_preds lab f' e visited)) in Y. intro k. rewrite mentions_one. exact (preds_list f' l visited pss l' Y P k).
      + unbind H m E1. unbind H x E2. unbind H y E3. destruct y as [c s1].
        destruct (add_component_grows (cnv_predicate p inv) c t B) as (G & CP & LN).
        destruct (add_component (cnv_predicate p inv) c t) as [i t1] eqn:AC. cbn [snd] in *.
        assert (i = length (t_cond t)) as -> by (unfold add_component in AC; injection AC as <- _; reflexivity). injection H as <- <- <-.
        destruct (IHv _ _ _ _ _ E3 NM LE) as (K & v' & c0 & U & -> & C).
        split; [exact K|]. split; [exact G|].
        split. { replace t1 with (snd (add_component (cnv_predicate p inv) (with_acts (act_conds acts) c0) t)) by (rewrite AC; reflexivity). constructor. exact B. }
        exists (ATc id inv p v' mn mx acts). split.
        { destruct v as [e|], v' as [e'|]; [constructor; exact U|destruct U|destruct U|constructor]. } split.
        * intros St tf A TG. destruct (C St A) as [D1 D2]. split.
          -- cbn [codes_te]. exists m, x, c0. split; [exact E1|]. split; [exact E2|]. split; [reflexivity|]. split; [exact LN|].
             split; [apply TG; exact CP|]. exact D1.
          -- apply (covers_weaken _ _ _ _ _ D2). intros y W. destruct v' as [e'|]; [|destruct W]. constructor. exact W.
        * intros [|f'] ps X; [discriminate|]. cbn [get_preds] in X. injection X as <-. intro k. cbn [mentions]. split.
          -- intros [<-|[]]. reflexivity.
          -- intros ->. left. reflexivity.
      + destruct (mem l visited) eqn:MV; [discriminate|]. destruct (lookup l lab) as [e|] eqn:LK; [|discriminate].
        destruct (IHte _ _ _ _ _ _ _ H B NM LE) as (K & G & B1 & e' & U & C & P).
        split; [exact K|]. split; [exact G|]. split; [exact B1|]. exists e'. split; [econstructor; [exact LK|exact U]|]. split; [exact C|].
        intros [|f'] ps X; [discriminate|]. cbn [get_preds] in X. rewrite MV, LK in X. exact (P f' ps X).
  Qed.
End Compile.
