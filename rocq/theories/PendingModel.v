(** Model of the pending tables of rudof, rbe/src/pending.rs.

    Simplifications: values, references and keys are naturals; an [IndexMap] is an
    association list in iteration order, an [IndexSet] a list in iteration order. *)

Require Import List Arith Bool.
Import ListNotations.
From Verif Require Import RbeModel.

(** ** indexmap *)

(** [IndexMap::get] *)
Fixpoint ix_get {A} (k : nat) (m : list (nat * A)) : option A :=
  match m with
  | [] => None
  | (k', a) :: m' => if k =? k' then Some a else ix_get k m'
  end.

(** [IndexMap::entry(k)] followed by an update in place; a vacant entry is
    appended *)
Fixpoint ix_upd {A} (k : nat) (f : option A -> A) (m : list (nat * A)) : list (nat * A) :=
  match m with
  | [] => [(k, f None)]
  | (k', a) :: m' => if k =? k' then (k', f (Some a)) :: m' else (k', a) :: ix_upd k f m'
  end.

(** [IndexMap::swap_remove]: the last entry takes the place of the removed one *)
Definition ix_swap_remove {A} (k : nat) (m : list (nat * A)) : list (nat * A) :=
  match rev m with
  | [] => []
  | l :: _ =>
      if fst l =? k then removelast m
      else map (fun e => if fst e =? k then l else e)
               (if existsb (fun e => fst e =? k) m then removelast m else m)
  end.

(** [IndexSet::insert] *)
Definition set_insert (s : list nat) (k : nat) : list nat := if mem k s then s else s ++ [k].
(** [IndexSet::extend] *)
Definition set_extend (s ks : list nat) : list nat := fold_left set_insert ks s.

Definition or_default {A} (d : A) (o : option A) : A := match o with Some a => a | None => d end.

(** ** rbe/src/pending.rs *)

Definition rmap := list (nat * list nat).
(** rbe/src/pending.rs:8-15 *)
Definition pending := list (nat * rmap).

(** rbe/src/pending.rs:23-31 *)
Definition p_empty : pending := [].

(** rbe/src/pending.rs:69-74 [insert] *)
Definition p_insert (v r : nat) (p : pending) : pending :=
  ix_upd v (fun o => ix_upd r (fun ks => or_default [] ks) (or_default [] o)) p.

(** rbe/src/pending.rs:77-79 [insert_with_key] *)
Definition p_insert_with_key (v r k : nat) (p : pending) : pending :=
  ix_upd v (fun o => ix_upd r (fun ks => set_insert (or_default [] ks) k) (or_default [] o)) p.

(** rbe/src/pending.rs:33-37 [from_pair] *)
Definition p_from_pair (v r : nat) : pending := p_insert v r p_empty.

(** rbe/src/pending.rs:57-64 [merge] *)
Definition p_merge (p other : pending) : pending :=
  fold_left (fun p (e : nat * rmap) =>
     ix_upd (fst e)
       (fun o => fold_left (fun rm (re : nat * list nat) =>
                     ix_upd (fst re) (fun ks => set_extend (or_default [] ks) (snd re)) rm)
                  (snd e) (or_default [] o)) p)
   other p.

(** rbe/src/pending.rs:53-55 [contains] *)
Definition p_contains (p : pending) (v r : nat) : bool :=
  match ix_get v p with
  | Some rm => match ix_get r rm with Some _ => true | None => false end
  | None => false
  end.

(** rbe/src/pending.rs:39-43 [get] *)
Definition p_get (p : pending) (v : nat) : option (list nat) :=
  option_map (map fst) (ix_get v p).

(** rbe/src/pending.rs:45-51 [len] *)
Definition p_len (p : pending) : nat :=
  fold_left (fun c (e : nat * rmap) => c + length (snd e)) p 0.

(** rbe/src/pending.rs:93-95 [is_empty] *)
Definition p_is_empty (p : pending) : bool := match p with [] => true | _ => false end.

(** rbe/src/pending.rs:120-126 [annotate_key] *)
Definition p_annotate (k : nat) (p : pending) : pending :=
  map (fun e : nat * rmap => (fst e, map (fun re : nat * list nat => (fst re, set_insert (snd re) k)) (snd e))) p.

(** rbe/src/pending.rs:109-115, 180-214 [iter]: the items produced by the iterator *)
Definition p_iter (p : pending) : list (nat * nat * nat) :=
  flat_map (fun e : nat * rmap =>
     flat_map (fun re : nat * list nat => map (fun k => (fst e, fst re, k)) (snd re)) (snd e)) p.

(** rbe/src/pending.rs:130-134 [iter_vr] *)
Definition p_iter_vr (p : pending) : list (nat * nat * list nat) :=
  flat_map (fun e : nat * rmap => map (fun re : nat * list nat => (fst e, fst re, snd re)) (snd e)) p.

(** rbe/src/pending.rs:140-167 [pop] (with [select_v], 136-138) *)
Inductive pop_result := PopNone | PopSome (v r k : nat) (rest : pending) | PopPanic.

Definition p_pop (p : pending) : pop_result :=
  match p with
  | [] => PopNone
  | (v, rs) :: _ =>
      match rev rs with
      | [] => PopPanic
      | (r, ks) :: _ =>
          match rev ks with
          | [] => PopPanic
          | k :: _ =>
              let ks' := removelast ks in
              let rs1 := ix_upd r (fun _ => ks') rs in
              let rs2 := match ks' with [] => ix_swap_remove r rs1 | _ => rs1 end in
              let p1 := ix_upd v (fun _ => rs2) p in
              let p2 := match rs2 with [] => ix_swap_remove v p1 | _ => p1 end in
              PopSome v r k p2
          end
      end
  end.

(** rbe/src/pending.rs:81-85 [insert_values] *)
Definition p_insert_values (v : nat) (l : list (nat * nat)) (p : pending) : pending :=
  fold_left (fun p rk => p_insert_with_key v (fst rk) (snd rk) p) l p.

(** rbe/src/pending.rs:87-91 [insert_from_iter] *)
Definition p_insert_from_iter (l : list (nat * nat * nat)) (p : pending) : pending :=
  fold_left (fun p t => p_insert_with_key (fst (fst t)) (snd (fst t)) (snd t) p) l p.

(** rbe/src/pending.rs:97-107 [from] *)
Definition p_from (l : list (nat * list (nat * nat))) : pending :=
  fold_left (fun p e => p_insert_values (fst e) (snd e) p) l p_empty.
