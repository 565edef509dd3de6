(** Operator splitting: definitions (no code is modelled here).  A splitting is a list of (process, weight). *)
From Coq Require Import String.
From Verif Require Import Base Vec ConvergenceSpec.
Open Scope R_scope.

(** total weight of a process *)
Definition weight_of (term : string) (todo : list (string * R)) : R :=
  fold_right (fun e acc => (if String.eqb (fst e) term then snd e else 0) + acc) 0 todo.
(** the same from the front as from the back, as in Strang splitting *)
Definition symmetric_splitting (todo : list (string * R)) : Prop := rev todo = todo.

(** The problem: dy/dt is the sum of the tendencies of the processes with these names and of the listed parametrisations. *)
Definition full_rhs {I} (labels : list string) (dyn : string -> vec I -> vec I) (phys : list (vec I -> vec I)) (x : vec I) : vec I :=
  vsum (List.length labels) (fun j => dyn (nth j labels EmptyString) x) +v vsum (List.length phys) (fun k => nth k phys (fun _ => vzero) x).

(** The error after n steps of size dt is at most C (initial error + dt^p). *)
Definition converges_at {I} (p : nat) (step : R -> vec I -> vec I -> Prop) (y : R -> vec I) (t0 T : R) : Prop :=
  exists C h0, 0 <= C /\ 0 < h0 /\ forall dt n (x : nat -> vec I) e0, 0 < dt <= h0 -> t0 + INR n * dt <= T ->
  (forall k, (k < n)%nat -> step dt (x k) (x (S k))) -> 0 <= e0 -> sup_le (x 0%nat -v y t0) e0 -> sup_le (x n -v y (t0 + INR n * dt)) (C * (e0 + dt ^ p)).
