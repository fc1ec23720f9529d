(* What is expected of sequences of calls. *)
From Coq Require Import List String Bool.
From Verif Require Import CsModel.
Import ListNotations.

Section Spec.
Context {L : lib}.

(* The text is a schema of the given syntax. *)
Definition reads (ps : list (string * string)) (f : syntax) (src : string) (s : schema) : Prop :=
  match f with
  | ShExC => read_shexc ps src = Some s
  | ShExJ => read_shexj src = Some s
  | OtherSyntax => False
  end.

(* Sessions with the same configuration, default prefixes and data. *)
Definition same_base (st st' : state) : Prop :=
  cfg st = cfg st' /\ defaults st = defaults st' /\ loaded st = loaded st'.

(* Equal but for the state of Map within the compiled schema. *)
Definition same_but_maps (st st' : state) : Prop :=
  same_base st st' /\ shac st = shac st' /\ pgs st = pgs st' /\
  source (shex st) = source (shex st') /\
  option_map fst (ir (shex st)) = option_map fst (ir (shex st')) /\
  validator (shex st) = validator (shex st') /\ smap (shex st) = smap (shex st') /\
  judged (shex st) = judged (shex st') /\ maps (shex st) = maps (shex st').

(* Results of validation do not depend on what Map has stored. *)
Definition mapless : Prop := forall c i q g m m', fst (run_shex c i q g m) = fst (run_shex c i q g m').

(* Calls whose effects are all or nothing. *)
Definition loading (o : call) : Prop :=
  match o with
  | AddNode _ _ => False
  | _ => True
  end.

(* Calls that concern ShEx, SHACL or property graphs. *)
Definition of_shex (o : call) : Prop :=
  match o with
  | LoadShex _ _ _ | LoadCompiled _ _ | LoadMap _ _ | AddNode _ _ | ValidateShex | ResetShex => True
  | _ => False
  end.
Definition of_shacl (o : call) : Prop :=
  match o with
  | LoadShacl _ | ValidateShacl | ResetShacl => True
  | _ => False
  end.
Definition of_pg (o : call) : Prop :=
  match o with
  | LoadPgSchema _ | LoadTypemap _ | ValidatePg | ResetPg => True
  | _ => False
  end.

End Spec.
