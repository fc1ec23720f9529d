(* What is expected of commands, mounts and indexes. *)
From Coq Require Import List String Ascii Bool.
From Verif Require Import QiModel.
Import ListNotations.
Open Scope list_scope.

(* The words of a simple command, as the shell of POSIX splits it.  Characters with a meaning to the
   shell are only read within apostrophes or after a backslash. *)
Definition meta : text :=
  chars "|&;<>()$`*?[]#~{}!" ++ [ascii_of_nat 9; ascii_of_nat 10; ascii_of_nat 32; ascii_of_nat 34; ascii_of_nat 39; ascii_of_nat 92].
Inductive place := Outside | Inside (w : text) | Quoted (w : text) | Escaped (w : text).
Fixpoint words (p : place) (s : text) : option (list text) :=
  match s with
  | [] => match p with
          | Outside => Some []
          | Inside w => Some [w]
          | _ => None
          end
  | c :: s =>
      let plain w :=
        if Ascii.eqb c (ascii_of_nat 39) then words (Quoted w) s
        else if Ascii.eqb c (ascii_of_nat 92) then words (Escaped w) s
        else if existsb (Ascii.eqb c) meta then None
        else words (Inside (w ++ [c])) s in
      match p with
      | Outside => if Ascii.eqb c " " then words Outside s else plain []
      | Inside w => if Ascii.eqb c " " then match words Outside s with Some l => Some (w :: l) | None => None end
                    else plain w
      | Quoted w => if Ascii.eqb c (ascii_of_nat 39) then words (Inside w) s else words (Quoted (w ++ [c])) s
      | Escaped w => words (Inside (w ++ [c])) s
      end
  end.

(* A mount as Docker reads it: three parts with colons between. *)
Fixpoint cut (l : text) : text * option text :=
  match l with
  | [] => ([], None)
  | c :: l => if Ascii.eqb c ":" then ([], Some l) else let (a, r) := cut l in (c :: a, r)
  end.
Definition read_bind (b : text) : option (text * text * text) :=
  match cut b with
  | (h, Some r) => match cut r with
                   | (c, Some m) => match cut m with
                                    | (m, None) => Some (h, c, m)
                                    | _ => None
                                    end
                   | _ => None
                   end
  | _ => None
  end.
Definition mounted (binds : list text) (h c : text) : Prop := exists b m, In b binds /\ read_bind b = Some (h, c, m).

(* Under this path, the container sees the file of the input and no other. *)
Definition shows (binds : list text) (p : text) (i : input) : Prop :=
  exists c, p = c ++ "/"%char :: name i /\ mounted binds (folder i) c /\ forall h, mounted binds h c -> h = folder i.

Definition colonless (l : text) : Prop := ~ In ":"%char l.

(* Inputs as from_paths makes them. *)
Definition ordinary (i : input) : Prop :=
  graph i = None /\ hd " "%char (folder i) = "/"%char /\ ~ In (ascii_of_nat 0) (path i) /\ ~ In "/"%char (name i).

Section Worlds.
Context {L : lib}.

(* What a file holds, unpacked as a whole. *)
Definition holds (w : world) (p : text) (z : option packing) (u : text) : Prop :=
  exists t, files w p = Some t /\ match z with
                                  | None => u = t
                                  | Some z => unpack z t = (u, true)
                                  end.
Definition input_now (w : world) (i : input) (x : fed) : Prop :=
  exists u, holds w (path i) (packed i) u /\ x = (format_of i, graph i, u).

(* What a source says, in a format of QLever. *)
Definition source_now (w : world) (s : source) (x : fed) : Prop :=
  match skind s with
  | Packed p f => exists u, holds w (spath s) (Some p) u /\ x = (f, None, u)
  | Plain RTurtle => exists u, holds w (spath s) None u /\ x = (Turtle, None, u)
  | Plain RNTriples => exists u, holds w (spath s) None u /\ x = (NTriples, None, u)
  | Plain RNQuads => exists u, holds w (spath s) None u /\ x = (NQuads, None, u)
  | Plain r => exists t u, holds w (spath s) None t /\ to_native r t = Some u /\
                 x = (match r with RTriG | RJsonLd => NQuads | _ => NTriples end, None, u)
  end.

End Worlds.

(* The arguments by which the index builder is told of its settings and of one input. *)
Definition opening (cmd : text) (cfg : config) (l : list text) : Prop :=
  exists a b c, l = cmd :: chars "-i" :: index_name cfg :: a ++ b ++ c /\
    (forall m, memory cfg = Some m -> a = [chars "-m"; m]) /\ (memory cfg = None -> a = []) /\
    (forall m, buffer cfg = Some m -> b = [chars "--parser-buffer-size"; m]) /\ (buffer cfg = None -> b = []) /\
    (parallel cfg = Some true -> c = [chars "--parse-parallel"; chars "true"]) /\
    (parallel cfg = Some false -> c = [chars "--parse-parallel"; chars "false"]) /\ (parallel cfg = None -> c = []).
Inductive told (p : text) : input -> list text -> Prop :=
| Told f n t e g h k : In (t, e) [(Turtle, "ttl"); (NTriples, "nt"); (NQuads, "nq")]%string ->
    g = match h with Some iri => iri | None => ["-"%char] end ->
    told p {| folder := f; name := n; format_of := t; graph := h; packed := k |}
      [chars "-f"; p; chars "-F"; chars e; chars "-g"; g].
