(** Model of gusto/core/logging.py l.70-216: levels from the environment, handlers of each rank, and the move of the log file to
    the model's directory.  Python's logging package is modelled as far as used: a record is passed to the handlers if its level
    is at least the logger's effective level, and a handler keeps it if its level is at least the handler's.

    Not modelled: formatting of the records, unhandled exceptions (l.58-68: an ordinary record of level ERROR), the monitors of
    linear solvers (l.218-330). *)
From Verif Require Import Base.
From Coq Require Import String Ascii.
Close Scope Q_scope.
Open Scope string_scope.

(** logging._nameToLevel of the standard library *)
(** Used at l.71-80. *)
Definition name_to_level (s : string) : option Z :=
  if s =? "CRITICAL" then Some 50%Z else if s =? "FATAL" then Some 50%Z else if s =? "ERROR" then Some 40%Z
  else if s =? "WARN" then Some 30%Z else if s =? "WARNING" then Some 30%Z else if s =? "INFO" then Some 20%Z
  else if s =? "DEBUG" then Some 10%Z else if s =? "NOTSET" then Some 0%Z else None.

(** The environment: an unset variable is None.  [e_logfile] is the documented GUSTO_LOGFILE_LOG_LEVEL, which the code does not read. *)
(** l.71-88. *)
Record env := mk_env { e_log : option string; e_file : option string; e_console : option string; e_logfile : option string; e_parallel : option string }.
(** l.71-80. *)
Record levels := mk_levels { l_logger : Z; l_file : Z; l_console : Z }.

(** l.71-80: os.environ.get with defaults INFO, log_level, log_level *)
Definition raw_levels (e : env) : list (option string) :=
  let log := e_log e in
  [log; match e_file e with Some s => Some s | None => log end; match e_console e with Some s => Some s | None => log end].
(** getLevelName: the number of a known name, the string "Level x" otherwise; None is the integer INFO *)
(** l.71-80. *)
Definition level_value (o : option string) : option Z := match o with None => Some 20%Z | Some s => name_to_level s end.
(** l.80 min and setLevel: integers; a TypeError for a mixture with strings; a ValueError from setLevel for strings only *)
Definition setup_levels (e : env) : res levels :=
  match map level_value (raw_levels e) with
  | [Some a; Some f; Some c] => Ok (mk_levels (Z.min a (Z.min f c)) f c)
  | [None; None; None] => Err ValueError
  | _ => Err TypeError
  end.

(** l.83-88: upper-cased, ignored if not one of the three options *)
Definition upper_ascii (c : ascii) : ascii :=
  let n := nat_of_ascii c in if (Nat.leb 97 n && Nat.leb n 122)%bool then ascii_of_nat (n - 32) else c.
(** Auxiliary, nothing in the code by itself. *)
Fixpoint upper (s : string) : string := match s with EmptyString => EmptyString | String c t => String (upper_ascii c) (upper t) end.
(** l.83-88. *)
Definition parallel_option (e : env) : option string :=
  match e_parallel e with
  | Some s => if existsb (String.eqb (upper s)) ["CONSOLE"; "FILE"; "BOTH"] then Some (upper s) else None
  | None => None
  end.
(** l.83-88, 140-160. *)
Definition par_file (e : env) : bool := match parallel_option e with Some s => existsb (String.eqb s) ["FILE"; "BOTH"] | None => false end.
(** l.83-88, 140-160. *)
Definition par_console (e : env) : bool := match parallel_option e with Some s => existsb (String.eqb s) ["CONSOLE"; "BOTH"] | None => false end.

(** Files: directory and name *)
(** Auxiliary, nothing in the code by itself. *)
Definition fpath := (string * string)%type.
(** Auxiliary, nothing in the code by itself. *)
Definition fpath_eqb (p q : fpath) : bool := ((fst p =? fst q) && (snd p =? snd q))%bool.
(** l.91-165. *)
Inductive sink := ToFile (p : fpath) | ToConsole | ToNothing.
(** l.91-117. *)
Record handler := mk_handler { h_name : string; h_sink : sink; h_level : Z }.
(** one process: its handlers, the files, what it wrote to the console, the barriers it entered *)
(** What l.119-216 act on. *)
Record proc := mk_proc { handlers : list handler; files : fpath -> option (list string); console : list string; barriers : nat }.

(** Auxiliary, nothing in the code by itself. *)
Definition set_file (m : fpath -> option (list string)) (p : fpath) (v : option (list string)) : fpath -> option (list string) :=
  fun q => if fpath_eqb q p then v else m q.
(** Auxiliary, nothing in the code by itself. *)
Definition content (m : fpath -> option (list string)) (p : fpath) : list string := match m p with Some l => l | None => [] end.

(** Handler.handle *)
(** Used through the handlers of l.91-117. *)
Definition emit (lvl : Z) (msg : string) (pr : proc) (h : handler) : proc :=
  if (h_level h <=? lvl)%Z then
    match h_sink h with
    | ToFile p => mk_proc (handlers pr) (set_file (files pr) p (Some (content (files pr) p ++ [msg])%list)) (console pr) (barriers pr)
    | ToConsole => mk_proc (handlers pr) (files pr) (console pr ++ [msg])%list (barriers pr)
    | ToNothing => pr
    end
  else pr.
(** getEffectiveLevel: level 0 (NOTSET) defers to the root logger, whose level is WARNING *)
(** The logger of l.80. *)
Definition effective (L : levels) : Z := if (l_logger L =? 0)%Z then 30%Z else l_logger L.
(** logger.log *)
(** Used by the whole package through gusto.core.logging.logger. *)
Definition log (L : levels) (lvl : Z) (msg : string) (pr : proc) : proc :=
  if (effective L <=? lvl)%Z then fold_left (emit lvl msg) (handlers pr) pr else pr.

(** create_logfile_handler, l.91-105, mode "w" (truncates) or "a" (creates if missing) *)
Definition open_w (m : fpath -> option (list string)) (p : fpath) := set_file m p (Some []).
(** l.91-105. *)
Definition open_a (m : fpath -> option (list string)) (p : fpath) := set_file m p (Some (content m p)).
(** logger.addHandler, l.119-165, 200-216. *)
Definition add_handler (h : handler) (pr : proc) : proc := mk_proc (handlers pr ++ [h])%list (files pr) (console pr) (barriers pr).
(** Auxiliary, nothing in the code by itself. *)
Definition with_files (pr : proc) m : proc := mk_proc (handlers pr) m (console pr) (barriers pr).
(** comm.Barrier, l.168-216. *)
Definition barrier (pr : proc) : proc := mk_proc (handlers pr) (files pr) (console pr) (S (barriers pr)).

(** the name of the temporary file, l.127-132; time stamp, rank and process number as strings *)
Definition temp_name (e : env) (stamp rank pid : string) : string :=
  "temp-gusto-" ++ stamp ++ (if par_file e then "_" ++ rank else "") ++ "_" ++ pid ++ ".log".

(** set_log_handler, l.119-165 *)
Definition set_log_handler (e : env) (L : levels) (stamp rank pid : string) (pr : proc) : proc :=
  let p := ("results", temp_name e stamp rank pid) in
  let pr := if par_file e then barrier pr else pr in
  let fileh pr := add_handler (mk_handler "gusto-temp-file-log" (ToFile p) (l_file L)) (with_files pr (open_w (files pr) p)) in
  let conh pr := add_handler (mk_handler "gusto-console-log" ToConsole (l_console L)) pr in
  let pr :=
    if rank =? "0" then conh (fileh pr)
    else
      let pr := if par_file e then fileh pr else pr in
      let pr := if par_console e then conh pr else pr in
      match handlers pr with [] => add_handler (mk_handler "null" ToNothing 0%Z) pr | _ => pr end in
  log L 20%Z "Running" pr.

(** the name without the prefix "temp-", l.183-187 *)
Definition strip_temp (s : string) : string := if prefix "temp-" s then substring 5 (String.length s - 5) s else s.
(** shutil.move onto a file name *)
(** l.188-195. *)
Definition move (m : fpath -> option (list string)) (p q : fpath) := set_file (set_file m q (m p)) p None.

(** update_logfile_location, l.168-216; None is LoggingError *)
Definition is_temp (h : handler) : bool := h_name h =? "gusto-temp-file-log".
(** logger.removeHandler, l.196-205. *)
Definition same_handler (h g : handler) : bool :=
  match h_sink h, h_sink g with
  | ToFile p, ToFile q => ((h_name h =? h_name g) && fpath_eqb p q)%bool
  | ToConsole, ToConsole | ToNothing, ToNothing => h_name h =? h_name g
  | _, _ => false
  end.
(** l.168-216. *)
Definition update_logfile_location (e : env) (L : levels) (dir : string) (pr : proc) : option proc :=
  match filter is_temp (handlers pr) with
  | [] => Some pr
  | [h] =>
      let pr := log L 10%Z "Closing temporary logger and moving logfile" pr in
      match h_sink h with
      | ToFile p =>
          let q := (dir, strip_temp (snd p)) in
          let pr := mk_proc (filter (fun g => negb (same_handler h g)) (handlers pr)) (files pr) (console pr) (barriers pr) in
          let pr := if par_file e then barrier pr else pr in
          let pr := with_files pr (move (files pr) p q) in
          let pr := add_handler (mk_handler "gusto-file-log" (ToFile q) (l_file L)) (with_files pr (open_a (files pr) q)) in
          Some (log L 10%Z "Re-opening logger" pr)
      | _ => Some pr   (* unreachable: handlers of that name write to files *)
      end
  | _ => None
  end.
