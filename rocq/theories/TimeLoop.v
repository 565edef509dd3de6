(** Model of the time loop, gusto/timestepping/timestepper.py lines 196-262
    (BaseTimestepper.run).  Times are exact rationals. *)
From Verif Require Import Base.
From Coq Require Import Qround.
Local Open Scope Q_scope.

Section Loop.
  (** The prognostic state held by the time stepper. *)
  Variable X : Type.
  (** self.x.update() (timestepper.py l.244). *)
  Variable update : X -> X.
  (** self.timestep() (timestepper.py l.251); it may depend on the current time
      and on the step counter. *)
  Variable timestep : Q -> nat -> X -> X.

  (** The mutable state of a run: self.x, self.t, self.step, and the log of
      calls io.dump(fields, TimeData(t, step, ...)) in order (l.256-262). *)
  Record model := mk_model {
    m_x : X; m_t : Q; m_step : nat;
    m_dumps : list (Q * nat * X)
  }.

  (** One iteration of the loop body, timestepper.py l.241-262. *)
  Definition loop_body (dt : Q) (m : model) : model :=
    let x1 := update (m_x m) in
    let x2 := timestep (m_t m) (m_step m) x1 in
    let t' := m_t m + dt in
    let s' := S (m_step m) in
    mk_model x2 t' s' (m_dumps m ++ [(t', s', x2)]).

  (** Loop test: while float(self.t) < tmax - 0.5*float(self.dt)  (l.241). *)
  Definition loop_test (dt tmax : Q) (m : model) : bool :=
    negb (Qle_bool (tmax - (1#2) * dt) (m_t m)).

  (** The while loop with explicit fuel; None = fuel exhausted. *)
  (** l.236-257. *)
  Fixpoint loop (fuel : nat) (dt tmax : Q) (m : model) : option model :=
    if loop_test dt tmax m then
      match fuel with
      | O => None
      | S f => loop f dt tmax (loop_body dt m)
      end
    else Some m.

  (** run(t, tmax, pick_up=False), l.227-262: step starts at 1, setup_dump does
      one initial dump of the current fields (io.py l.573-582), the clock is
      set, then the loop runs. *)
  Definition start (t : Q) (x : X) : model := mk_model x t 1 [(t, 1%nat, x)].

  (** Auxiliary, nothing in the code by itself. *)
  Definition loop_fuel (t tmax dt : Q) : nat := Z.to_nat (Qceiling ((tmax - t) / dt)).

  (** l.196-262. *)
  Definition run (t tmax dt : Q) (x : X) : option model :=
    loop (loop_fuel t tmax dt) dt tmax (start t x).

  (** run(t, tmax, pick_up=True), l.216-225: t, step and x come from the
      checkpoint and no initial dump is made (io.py l.573). *)
  Definition run_from (t : Q) (s : nat) (x : X) (tmax dt : Q) : option model :=
    loop (loop_fuel t tmax dt) dt tmax (mk_model x t s []).
End Loop.

Arguments mk_model {X}.
Arguments m_x {X}.
Arguments m_t {X}.
Arguments m_step {X}.
Arguments m_dumps {X}.
Arguments loop_body {X}.
Arguments loop_test {X}.
Arguments loop {X}.
Arguments run {X}.
Arguments run_from {X}.
Arguments start {X}.
