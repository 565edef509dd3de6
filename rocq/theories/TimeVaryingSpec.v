(** Non-autonomous problems dy/dt = F(t, y): definitions (no code is modelled here). *)
From Verif Require Import Base Vec RKSpec ConvergenceSpec.
Open Scope R_scope.

(** One textbook explicit Runge-Kutta step of size dt for dy/dt = F(t, y) from (t, y): stage i is evaluated at time t + c_i dt. *)
Definition timed_step {I} (A : nat -> nat -> R) (s : nat) (F : R -> vec I -> vec I) (dt t : R) (y y1 : vec I) : Prop :=
  exists k : nat -> vec I,
    (forall i, (i < s)%nat -> k i = F (t + c_coef A i * dt) (y +v dt *v vsum i (fun j => a_coef A i j *v k j))) /\
    y1 = y +v dt *v vsum s (fun j => b_coef A s j *v k j).
(** n textbook steps *)
Fixpoint timed_steps {I} (A : nat -> nat -> R) (s : nat) (F : R -> vec I -> vec I) (dt t : R) (n : nat) (y y1 : vec I) : Prop :=
  match n with
  | O => y1 = y
  | S m => exists z, timed_steps A s F dt t m y z /\ timed_step A s F dt (t + INR m * dt) z y1
  end.

(** y solves dy/dt = F(t, y) from t0 to T *)
Definition timed_solution {I} (F : R -> vec I -> vec I) (y : R -> vec I) (t0 T : R) : Prop :=
  forall t i, t0 <= t <= T -> derivable_pt_lim (fun u => y u i) t (F t (y t) i).
(** F is Lipschitz in the state with constant L, Lipschitz in time along the solution with constant Lt, and at most M along the solution *)
Definition timed_regular {I} (F : R -> vec I -> vec I) (y : R -> vec I) (t0 T L Lt M : R) : Prop :=
  0 <= L /\ 0 <= Lt /\ 0 <= M /\
  (forall t x z rho, sup_le (x -v z) rho -> sup_le (F t x -v F t z) (L * rho)) /\
  (forall t u, t0 <= t <= T -> t0 <= u <= T -> sup_le (F t (y t) -v F u (y t)) (Lt * Rabs (t - u))) /\
  (forall t, t0 <= t <= T -> sup_le (F t (y t)) M).

(** Textbook theta method for dy/dt = F(t, y) + P(t, y), P explicit. *)
Definition timed_theta_step {I} (theta : R) (F P : R -> vec I -> vec I) (dt t : R) (y y1 : vec I) : Prop :=
  y1 = y +v (dt * (1 - theta)) *v F t y +v (dt * theta) *v F (t + dt) y1 +v dt *v P t y.
