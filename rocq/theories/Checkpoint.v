(** Model of checkpointing and pick-up: gusto/core/io.py setup_dump (l.370-582),
    pick_up_from_checkpoint (l.584-720), dump (l.722-807) and the pick-up branch of
    BaseTimestepper.run (gusto/timestepping/timestepper.py l.216-233). *)
From Verif Require Import Base.

(* ------------------------------------------------------------------------ *)
(** * The simulation state and its checkpoint *)
Section Restart.
  (** All prognostic / prescribed / reference data of one time level.
      (That the per-field copying of TimeLevelFields.update moves whole levels is
      proved in Fields.) *)
  Variable V : Type.
  Variable T : Type.                      (* times *)
  Variable advance : T -> T.              (* t -> t + dt *)
  (** The scheme: from time, step counter, the previous levels (oldest first,
      after update) and the start-up counter it yields the new np1 level and the
      new start-up counter.  Simplification: no other hidden state (solvers' initial
      guesses do not influence exact solutions). *)
  Variable scheme : T -> nat -> list V -> nat -> V * nat.
  (** Whether the scheme has an initial_timesteps attribute (multi-level
      schemes), timestepper.py l.60-75. *)
  Variable multilevel : bool.

  (** The state of a simulation: TimeLevelFields (core/fields.py l.245-310), time and step counters (timestepper.py l.197-266). *)
  Record sim := mk_sim {
    prev : list V;        (* nm_(k-1), ..., nm1, n *)
    new : V;              (* np1 *)
    time : T;
    step : nat;
    startup : nat;        (* scheme.initial_timesteps *)
  }.

  (** One iteration of the time loop (timestepper.py l.241-262). *)
  Definition sim_step (s : sim) : sim :=
    let prev' := (tl (prev s) ++ [new s])%list in
    let '(x, c) := scheme (time s) (step s) prev' (startup s) in
    mk_sim prev' x (advance (time s)) (S (step s)) c.

  (** What a checkpoint holds (io.py l.781-794): np1 and, for len(levels) > 2,
      the previous levels n, nm1, ..., i.e. all but the oldest
      (fields.py l.146-154), the time, the step and initial_steps (absent if None). *)
  Record chk := mk_chk {
    c_new : V; c_prev : list V; c_time : T; c_step : nat; c_startup : option nat }.

  (** dump called from the time loop (timestepper.py l.256-262):
      initial_steps = get_initial_timesteps(). *)
  Definition save (s : sim) : chk :=
    mk_chk (new s) (tl (prev s)) (time s) (step s)
           (if multilevel then Some (startup s) else None).

  (** The initial dump of setup_dump (io.py l.573-582): step = 1,
      initial_steps = None. *)
  Definition save_initial (s : sim) : chk :=
    mk_chk (new s) (tl (prev s)) (time s) 1 None.

  (** Pick-up into a freshly constructed model [fresh] (io.py l.667-702,
      timestepper.py l.216-225, 60-67).  The oldest previous level keeps whatever
      the fresh model holds. *)
  Definition load (c : chk) (fresh : sim) : sim :=
    mk_sim (firstn 1 (prev fresh) ++ c_prev c)%list (c_new c) (c_time c) (c_step c)
      (match c_startup c with
       | Some k => if multilevel then k else startup fresh
       | None => startup fresh
       end).
End Restart.
Arguments mk_sim {V T}.
Arguments prev {V T}.
Arguments new {V T}.
Arguments time {V T}.
Arguments step {V T}.
Arguments startup {V T}.
Arguments sim_step {V T}.
Arguments save {V T}.
Arguments save_initial {V T}.
Arguments load {V T}.
Arguments mk_chk {V T}.
Arguments c_new {V T}.
Arguments c_prev {V T}.
Arguments c_time {V T}.
Arguments c_step {V T}.
Arguments c_startup {V T}.

(* ------------------------------------------------------------------------ *)
(** * Output schedule: the counters of dump() *)

(** Output frequencies (OutputParameters diagfreq, pddumpfreq, chkptfreq,
    dumpfreq). *)
(** core/configuration.py, OutputParameters. *)
Record freqs := mk_freqs { f_diag : nat; f_pd : nat; f_chk : nat; f_dump : nat }.

(** The itertools counters (io.py l.432, 524, 541, 568). *)
Record counters := mk_counters { n_diag : nat; n_pd : nat; n_chk : nat; n_dump : nat }.

(** setup_dump: counters start at 0; when picking up each is advanced once
    (io.py l.434-435, 525-526, 543-544, 570-571). *)
Definition setup_counters (pick_up : bool) : counters :=
  let c := if pick_up then 1 else 0 in mk_counters c c c c.

(** The outputs of dump, io.py l.752-803. *)
Inductive out_event := EDiag | EPoint | EChk | EField.

(** One call of dump() at model step index j (io.py l.752-803): the events in the
    order in which they happen. *)
Definition dump_events (f : freqs) (c : counters) (j : nat) : list (out_event * nat) * counters :=
  ((if Nat.eqb (n_diag c mod f_diag f) 0 then [(EDiag, j)] else [])
   ++ (if Nat.eqb (n_pd c mod f_pd f) 0 then [(EPoint, j)] else [])
   ++ (if Nat.eqb (n_chk c mod f_chk f) 0 then [(EChk, j)] else [])
   ++ (if Nat.eqb (n_dump c mod f_dump f) 0 then [(EField, j)] else []),
   mk_counters (S (n_diag c)) (S (n_pd c)) (S (n_chk c)) (S (n_dump c)))%list.

(** dump() called at the given consecutive model step indices. *)
(** The calls of dump in BaseTimestepper.run, timestepper.py l.214, 262. *)
Fixpoint dumps (f : freqs) (c : counters) (js : list nat) : list (out_event * nat) :=
  match js with
  | [] => []
  | j :: tl => let '(ev, c') := dump_events f c j in (ev ++ dumps f c' tl)%list
  end.

(** A fresh run of n steps: initial dump (index 0) and one dump per step. *)
(** timestepper.py l.209-266. *)
Definition fresh_run (f : freqs) (n : nat) : list (out_event * nat) :=
  dumps f (setup_counters false) (seq 0 (S n)).
(** A run picked up from the checkpoint of model step p, continuing to step n. *)
(** timestepper.py l.216-233, then the loop. *)
Definition picked_up_run (f : freqs) (p n : nat) : list (out_event * nat) :=
  dumps f (setup_counters true) (seq (S p) (n - p)).

(* ------------------------------------------------------------------------ *)
(** * Files under crashes *)

(** The contents of the output files: time indices of the diagnostics file
    (append-only, io.py l.203-204), rows of the point-data file, the checkpoint
    file, the field file. *)
Inductive chk_file := NoFile | Partial | Complete (j : nat).
(** The files written by io.py l.752-803. *)
Record disk := mk_disk {
  d_diag : list nat; d_point : list nat; d_chk : chk_file; d_field : list nat }.

(** Elementary writes.  The checkpoint is written in place with mode 'w'
    (io.py l.780-794): truncate, then complete. *)
Inductive micro := MDiag (j : nat) | MPoint (i j : nat) | MTrunc | MComplete (j : nat) | MField (i j : nat).

(** netCDF write at record index i: extends the record dimension if needed;
    otherwise overwrites (io.py l.145-149, 902, 922-926). Unwritten records hold
    the fill value, represented by 0. *)
Fixpoint write_at (i j : nat) (l : list nat) : list nat :=
  match i, l with
  | O, [] => [j]
  | O, _ :: tl => j :: tl
  | S i', [] => 0 :: write_at i' j []
  | S i', h :: tl => h :: write_at i' j tl
  end.

(** The effect of one write of io.py l.752-803. *)
Definition do_micro (d : disk) (m : micro) : disk :=
  match m with
  | MDiag j => mk_disk (d_diag d ++ [j])%list (d_point d) (d_chk d) (d_field d)
  | MPoint i j => mk_disk (d_diag d) (write_at i j (d_point d)) (d_chk d) (d_field d)
  | MTrunc => mk_disk (d_diag d) (d_point d) Partial (d_field d)
  | MComplete j => mk_disk (d_diag d) (d_point d) (Complete j) (d_field d)
  | MField i j => mk_disk (d_diag d) (d_point d) (d_chk d) (write_at i j (d_field d))
  end.

(** The elementary writes of a run whose dump() events are [evs]; [pi] is
    PointDataOutput.dump_count, [fi] is field_t_idx (io.py l.89, 151, 454, 931). *)
Fixpoint micros (pi fi : nat) (evs : list (out_event * nat)) : list micro :=
  match evs with
  | [] => []
  | (EDiag, j) :: tl => MDiag j :: micros pi fi tl
  | (EPoint, j) :: tl => MPoint pi j :: micros (S pi) fi tl
  | (EChk, j) :: tl => MTrunc :: MComplete j :: micros pi fi tl
  | (EField, j) :: tl => MField fi j :: micros pi (S fi) tl
  end.

(** Auxiliary, nothing in the code by itself. *)
Definition exec (d : disk) (ms : list micro) : disk := fold_left do_micro ms d.

(** Auxiliary, nothing in the code by itself. *)
Definition empty_disk : disk := mk_disk [] [] NoFile [].

(** A fresh run of n steps killed after k elementary writes. *)
(** dump, io.py l.722-807, interrupted. *)
Definition run_killed (f : freqs) (n k : nat) : disk :=
  exec empty_disk (firstn k (micros 0 0 (fresh_run f n))).

(** Picking up: needs a complete checkpoint; PointDataOutput starts again with
    dump_count = 0 (io.py l.89, 96-97), the field index continues after the
    existing records (l.450-454). Runs to step n, killed after k writes. *)
Definition resume_killed (f : freqs) (d : disk) (n k : nat) : option disk :=
  match d_chk d with
  | Complete p =>
      Some (exec d (firstn k (micros 0 (length (d_field d)) (picked_up_run f p n))))
  | _ => None
  end.

(** DumbCheckpoint: when picking up, setup_dump re-creates the file
    (io.py l.553-556, mode FILE_CREATE) before anything new is stored. *)
Definition dumbcheckpoint_setup (d : disk) : disk :=
  mk_disk (d_diag d) (d_point d) Partial (d_field d).

(* ------------------------------------------------------------------------ *)
(** * The results-directory guard, io.py l.389-425 *)
Record guard_opts := mk_guard {
  g_dump_vtus : bool; g_dump_nc : bool; g_latlon : bool; g_diagnostics : bool;
  g_point_data : bool; g_checkpoint : bool; g_pick_up : bool;
  g_running_tests : bool; g_overwrite : bool }.

(** The condition at io.py l.393-395. *)
Definition needs_dir (o : guard_opts) : bool :=
  g_dump_vtus o || g_dump_nc o || g_latlon o || g_diagnostics o || g_point_data o
  || (g_checkpoint o && negb (g_pick_up o)).

(** What rank r contributes to the allreduce: only rank 0 looks at the file
    system (l.401-412). [exists0] / [mkdir_ok0] describe rank 0's view. *)
Definition rank_code (o : guard_opts) (exists0 mkdir_ok0 : bool) (r : nat) : nat :=
  if Nat.eqb r 0 then
    if negb exists0 then (if mkdir_ok0 then 0 else 2)
    else if negb (g_running_tests o || g_pick_up o) then 1 else 0
  else 0.

(** MPI allreduce with MAX, io.py l.416. *)
Definition allreduce_max (codes : list nat) : nat := fold_right Nat.max 0 codes.

(** Outcome of setup_dump's guard on each of the [size] ranks (l.416-423). *)
Definition guard (o : guard_opts) (exists0 mkdir_ok0 : bool) (size : nat) : list (res unit) :=
  if needs_dir o then
    let code := allreduce_max (map (rank_code o exists0 mkdir_ok0) (seq 0 size)) in
    map (fun r => if Nat.eqb code 1 && negb (g_overwrite o) then Err GustoIOError
                  else if Nat.eqb code 2 then Err OSError else Ok tt) (seq 0 size)
  else map (fun _ => Ok tt) (seq 0 size).
