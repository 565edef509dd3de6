(** Model of time-varying data: prescribed transporting velocities (gusto/timestepping/timestepper.py PrescribedTransport l.431-508) and
    SourceSink with time_varying (gusto/physics/physics_parametrisation.py l.119-159), inside BaseTimestepper.run (timestepper.py l.232-252) with an
    explicit Runge-Kutta scheme (RK.v).  domain.t is one Constant shared by all of them; it is assigned only in run. *)
From Verif Require Import Base Vec RK RKProps.
Open Scope R_scope.

Inductive formulation := Increment | Predictor.

Section TimeVarying.
Context {I D : Type}.
Variables (A : nat -> nat -> R) (s : nat) (f : formulation) (dt : R) (ncycles : nat).
(** prescribed: the projection of expr_func(self.t), or the effect of velocity_apply(self.t), on the field 'u'.
    terms u x: the discretised terms of the equation with the field 'u' equal to u.
    source t x: what SourceSink.evaluate (physics_parametrisation.py l.138-159) writes when domain.t = t, plus any other physics. *)
Variables (prescribed : R -> D) (terms : D -> vec I -> vec I) (source : R -> vec I -> vec I).

(** self.t, the field 'u', the stage storage of the scheme and the prognostic field *)
Record state := mk_state { time : R; velocity : D; storage : nat -> vec I; field : vec I }.

(** explicit_runge_kutta.py apply_cycle l.434-454 in the increment or predictor formulation; the source is evaluated in each stage (l.326-328, 351-353)
    at whatever domain.t holds. *)
Definition cycle (st : state) (h : R) (k : nat -> vec I) (x : vec I) : (nat -> vec I) * vec I :=
  match f with
  | Increment => increment_cycle A s no_limiter h (terms (velocity st)) (source (time st)) k x
  | Predictor => predictor_cycle A s no_limiter h (terms (velocity st)) (source (time st)) k x
  end.
(** ExplicitTimeDiscretisation.apply, time_discretisation.py l.592-607, with fixed subcycles (l.519-522: the scheme's dt is dt/ncycles); domain.t is not touched. *)
Definition scheme_apply (st : state) : state :=
  let r := apply_cycles (fun _ => cycle st (dt / INR ncycles)) ncycles (storage st) (field st) in
  mk_state (time st) (velocity st) (fst r) (snd r).
(** PrescribedTransport.timestep, timestepper.py l.497-508: "velocity_projection.project()" or "velocity_apply(self.t)", then Timestepper.timestep (l.372-381). *)
Definition timestep (st : state) : state :=
  scheme_apply (mk_state (time st) (prescribed (time st)) (storage st) (field st)).
(** one pass of the time loop, timestepper.py l.236-252: timestep, then "self.t.assign(float(self.t) + float(self.dt))" *)
Definition loop_pass (st : state) : state :=
  let st := timestep st in mk_state (time st + dt) (velocity st) (storage st) (field st).
(** PrescribedTransport.run l.488-494: the velocity is evaluated before super().run assigns t (l.233): at the value self.t has from before *)
Definition before_loop (t : R) (st : state) : state :=
  mk_state t (prescribed (time st)) (storage st) (field st).
(** n passes of the loop of run(t, tmax) *)
Definition run_passes (t : R) (n : nat) (st : state) : state := niter n loop_pass (before_loop t st).
End TimeVarying.

(** What the output shows for the field 'u' at a dump: the time of the dump (timestepper.py l.254-262, io.dump) and the field as it is. *)
Definition dumped {I D} (st : @state I D) : R * D := (time st, velocity st).

(** The theta family with time-varying data in one pass of the loop: ThetaMethod/BackwardEuler/TrapeziumRule apply with the residual terms frozen at self.t
    (the forms contain domain.t, which the solve does not change), then t := t + dt.  N t x: the residual terms when domain.t = t; P t x: the explicit physics. *)
From Verif Require Import Theta.
Definition theta_pass {I} (theta dt : R) (ncycles : nat) (N P : R -> vec I -> vec I) (X : vec I) (t : R) (x : vec I) (t' : R) (x' : vec I) : Prop :=
  exists src src', theta_apply (N t) (P t) (dt / INR ncycles) X theta ncycles src x x' src' /\ t' = t + dt.
(** n passes; X is what the fields held when the solver was set up (see Theta.v) *)
Fixpoint theta_run {I} (theta dt : R) (ncycles n : nat) (N P : R -> vec I -> vec I) (X : vec I) (t : R) (x : vec I) (t' : R) (x' : vec I) : Prop :=
  match n with
  | O => t' = t /\ x' = x
  | S m => exists t1 x1, theta_run theta dt ncycles m N P X t x t1 x1 /\ theta_pass theta dt ncycles N P X t1 x1 t' x'
  end.
