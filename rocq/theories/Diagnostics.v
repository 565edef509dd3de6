(** Model of gusto/diagnostics/diagnostics.py: registration (l.36-57), iterative
    diagnostics (l.224-338), steady-state error (l.869-921), cumulative sums
    (l.1060-1097). *)
From Verif Require Import Base Vec.

(** Diagnostics.register, l.46-57: membership is tested against the set of names
    present when the call started. *)
Definition register (fields news : list string) : list string :=
  fold_left (fun fs f => if existsb (String.eqb f) fields then fs else (fs ++ [f])%list) news fields.

(** One register call per name, as io.setup_diagnostics does (io.py l.360-368),
    or several calls with any arguments. *)
Definition register_calls (fields : list string) (calls : list (list string)) : list string :=
  fold_left register calls fields.

(** IterativeDiagnosticField.setup: expr = (1 - gamma) field + gamma implicit(field)
    (l.287); the method evaluates expr exactly at the degrees of freedom. *)
Definition iter_step {I} (gamma : R) (implicit : vec I -> vec I) (x : vec I) : vec I :=
  (1 - gamma) *v x +v gamma *v implicit x.

(** IterativeDiagnosticField.compute, l.331-337. *)
Definition iter_compute {I} (gamma : R) (implicit : vec I -> vec I) (num_iterations : nat)
  (first_guess : vec I) : vec I := niter num_iterations (iter_step gamma implicit) first_guess.

(** SteadyStateError: whether the *_init field exists, its value, init_field_set. *)
(** l.869-926. *)
Record sse (I : Type) := mk_sse { s_exists : bool; s_init : vec I; s_set : bool }.
Arguments mk_sse {I}.
Arguments s_exists {I}.
Arguments s_init {I}.
Arguments s_set {I}.

(** setup, l.880-908: [x] is the current value of the field. A new field holds 0. *)
Definition sse_setup {I} (x : vec I) (s : sse I) : sse I :=
  if s_exists s then mk_sse true x true else mk_sse true vzero false.
(** pick_up_from_checkpoint, io.py l.655-660 (loads *_init) and l.709-712. *)
Definition sse_pick_up {I} (stored : vec I) (s : sse I) : sse I := mk_sse (s_exists s) stored true.
(** compute, l.910-921: the new state and the computed difference. *)
Definition sse_compute {I} (x : vec I) (s : sse I) : sse I * vec I :=
  let s' := if s_set s then s else mk_sse (s_exists s) x true in
  (s', x -v s_init s').
(** The calls of compute, io.py l.748-750. *)
Fixpoint sse_computes {I} (xs : list (vec I)) (s : sse I) : sse I * list (vec I) :=
  match xs with
  | [] => (s, [])
  | x :: tl => let '(s1, d) := sse_compute x s in
               let '(s2, ds) := sse_computes tl s1 in (s2, d :: ds)
  end.

(** A process that starts from nothing: setup at the initial field, then one
    compute per dump (initial dump included). *)
(** timestepper.py l.197-266. *)
Definition sse_first_run {I} (x0 : vec I) (xs : list (vec I)) : sse I * list (vec I) :=
  sse_computes (x0 :: xs) (sse_setup x0 (mk_sse false vzero false)).
(** A fresh process that picks up a checkpoint storing [stored]; the field holds
    [y] during setup (the model's own initial condition). *)
(** timestepper.py l.216-233. *)
Definition sse_picked_up_run {I} (y stored : vec I) (xs : list (vec I)) : sse I * list (vec I) :=
  sse_computes xs (sse_pick_up stored (sse_setup y (mk_sse false vzero false))).
(** A second run() in the same process, without pick-up, at current field [x]. *)
(** timestepper.py l.197-266. *)
Definition sse_second_run {I} (s : sse I) (x : vec I) (xs : list (vec I)) : sse I * list (vec I) :=
  sse_computes (x :: xs) (sse_setup x s).

(** CumulativeSum: compute adds the integrand (l.1090-1092); setup zeroes the sum
    (l.1088); pick-up loads it. *)
Definition cum_computes {I} (acc : vec I) (xs : list (vec I)) : vec I :=
  fold_left (fun a x => a +v x) xs acc.
(** l.1060-1097. *)
Definition cum_first_run {I} (xs : list (vec I)) : vec I := cum_computes vzero xs.
(** l.1085, io.py l.655-660. *)
Definition cum_picked_up_run {I} (stored : vec I) (xs : list (vec I)) : vec I := cum_computes stored xs.
