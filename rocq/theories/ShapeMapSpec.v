(** What a result shape map records. *)
From Coq Require Import List Arith Bool.
Import ListNotations.
From Verif Require Import ShapeMapModel.

(** the statuses given for a pair, in order *)
Definition given (n l : nat) (calls : list (nat * nat * status)) : list status :=
  map snd (filter (fun c : nat * nat * status => Nat.eqb (fst (fst c)) n && Nat.eqb (snd (fst c)) l) calls).

Definition is_pending (s : status) : Prop := s = Pending.
(** pending or non conformant; pending or conformant *)
Definition not_positive (s : status) : Prop := match s with Pending | NonConformant _ => True | _ => False end.
Definition not_negative (s : status) : Prop := match s with Pending | Conformant _ => True | _ => False end.

(** the conformant ones *)
Fixpoint infos (ss : list status) : list conformant_info :=
  match ss with
  | [] => []
  | Conformant i :: r => i :: infos r
  | _ :: r => infos r
  end.
(** the texts one per line, the values one after the other *)
Fixpoint lines (ts : list (list nat)) : list nat :=
  match ts with
  | [] => []
  | [t] => t
  | t :: r => t ++ newline :: lines r
  end.
Definition values (j : json) : list json := match j with JArray l => l | v => [v] end.

(** the status recorded for a pair after it was given the statuses [ss] *)
Inductive recorded : list status -> option status -> Prop :=
| rec_none : recorded [] None
| rec_pending ss : ss <> [] -> Forall is_pending ss -> recorded ss (Some Pending)
| rec_negative before e after :
    Forall is_pending before -> Forall not_positive after ->
    recorded (before ++ NonConformant e :: after) (Some (NonConformant e))
| rec_conformant_once ss i :
    Forall not_negative ss -> infos ss = [i] -> recorded ss (Some (Conformant i))
| rec_conformant ss i js :
    Forall not_negative ss -> infos ss = i :: js -> js <> [] -> (exists vs, app_info i = JArray vs) ->
    recorded ss (Some (Conformant (mkInfo (lines (map reason (i :: js)))
                                          (JArray (flat_map (fun j => values (app_info j)) (i :: js))))))
| rec_inconsistent i e : recorded [Inconsistent i e] (Some (Inconsistent i e)).

(** labels of a schema built by adding shapes *)
Inductive built_labels : labels -> Prop :=
| built_none : built_labels no_labels
| built_shape label r : built_labels r -> built_labels (add_shape label r)
| built_index r : built_labels r -> built_labels (new_index r).
