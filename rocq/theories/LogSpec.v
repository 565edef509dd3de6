(** What a user expects of the logs: definitions (no code is modelled here). *)
From Verif Require Import Base.
From Coq Require Import String Ascii.
Close Scope Q_scope.
Open Scope string_scope.

(** the documented levels (module docstring of logging.py) *)
Definition documented_level (s : string) : option Z :=
  if s =? "DEBUG" then Some 10%Z else if s =? "INFO" then Some 20%Z else if s =? "WARNING" then Some 30%Z
  else if s =? "ERROR" then Some 40%Z else if s =? "CRITICAL" then Some 50%Z else None.
(** What happens in a program: it logs, it sets up the output of a model in a directory, ... *)
Inductive event := Log (level : Z) (msg : string) | Output (dir : string).
(** the program's messages of at least the given level, in order *)
Definition messages (threshold : Z) (h : list event) : list string :=
  flat_map (fun e => match e with Log l m => if (threshold <=? l)%Z then [m] else [] | Output _ => [] end) h.
(** the directory of the first model of the program; "results" if there is none *)
Definition first_output (h : list event) : string :=
  match flat_map (fun e => match e with Output d => [d] | _ => [] end) h with d :: _ => d | [] => "results" end.
(** messages that are not the logger's own *)
Definition own (m : string) : bool := existsb (String.eqb m) ["Closing temporary logger and moving logfile"; "Re-opening logger"].
Definition of_program (l : list string) : list string := filter (fun m => negb (own m)) l.
(** The word, which is in capitals, up to upper and lower case (ASCII codes differ by 32). *)
Fixpoint spells (s word : string) : Prop :=
  match s, word with
  | EmptyString, EmptyString => True
  | String c s, String d word => (c = d \/ nat_of_ascii c = nat_of_ascii d + 32)%nat /\ spells s word
  | _, _ => False
  end.
