(** Independent specification of what a run should do (no reference to the
    model of the loop). *)
From Verif Require Import Base.
Local Open Scope Q_scope.

(** n is the least number of steps of size dt that reaches tmax to within half a
    time step. *)
Definition number_of_steps (t tmax dt : Q) (n : nat) : Prop :=
  tmax - (1#2) * dt <= t + inject_Z (Z.of_nat n) * dt /\
  (forall k, (k < n)%nat -> t + inject_Z (Z.of_nat k) * dt < tmax - (1#2) * dt).

(** The clock after k steps: repeated addition of dt. *)
Definition clock (dt : Q) (k : nat) (t : Q) : Q := niter k (fun s => s + dt) t.

(** The prognostic state after n steps: from state x_k at time t_k with step
    counter s + k, the next state is timestep(t_k, s + k, update(x_k)). *)
Fixpoint trajectory {X} (update : X -> X) (timestep : Q -> nat -> X -> X)
    (dt t : Q) (s : nat) (x : X) (n : nat) : X :=
  match n with
  | O => x
  | S k => timestep (clock dt k t) (s + k)%nat
             (update (trajectory update timestep dt t s x k))
  end.
