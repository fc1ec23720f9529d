(* What C110 says about servers: options of a command as they are read, and what is within a folder. *)
From Coq Require Import List String Ascii Bool Arith.
From Verif Require Import QiModel QiSpec QvModel.
Import ListNotations.
Open Scope list_scope.

(* Options that have a value. *)
Definition valued : list text :=
  List.map chars ["-i"; "-p"; "-a"; "-j"; "-m"; "-c"; "-e"; "-E"; "-k"; "-s"; "-S"; "--throw-on-unbound-variables"]%string.

(* The value of an option in a list of arguments: the argument after it, or nothing for a switch. *)
Fixpoint value_of (o : text) (l : list text) : option (option text) :=
  match l with
  | [] => None
  | f :: l =>
      if in_dec text_dec f valued then
        match l with
        | v :: l => if text_dec o f then Some (Some v) else value_of o l
        | [] => None
        end
      else if text_dec o f then Some None else value_of o l
  end.

Definition read_text (o : string) (l : list text) (x : option text) : Prop := value_of (chars o) l = option_map Some x.
Definition read_number (o : string) (l : list text) (x : option nat) : Prop :=
  value_of (chars o) l = option_map (fun n => Some (print n)) x.
Definition read_switch (o : string) (l : list text) (b : bool) : Prop :=
  value_of (chars o) l = if b then Some None else None.

(* The texts among the settings that are there are not empty. *)
Definition filled (s : settings) : Prop :=
  forall x, In (Some x) [token s; memory_max s; cache_max s; cache_single s; lazy_max s; timeout s] -> x <> [].

Definition within (d p : text) : Prop := exists r, p = d ++ slash :: r.
