(** Convergence of linear multistep schemes: definitions (no code is modelled here).  Norms and Lipschitz continuity as in ConvergenceSpec.v. *)
From Verif Require Import Base Vec ConvergenceSpec.
Open Scope R_scope.

(** y is q + 1 times differentiable on [t0, T], with bounded highest derivative *)
Definition smooth_in_time {I} (q : nat) (y : R -> vec I) (t0 T : R) : Prop :=
  exists (Y : nat -> R -> vec I) (M : R), 0 <= M /\ (forall t, Y 0%nat t = y t) /\
  (forall k t i, (k <= q)%nat -> t0 <= t <= T -> derivable_pt_lim (fun u => Y k u i) t (Y (S k) t i)) /\
  (forall t, t0 <= t <= T -> sup_le (Y (S q) t) M).
(** sum_{j<=k} c_j x_{n+j} = h sum_{j<=k} d_j F(x_{n+j}) *)
Definition multistep {I} (k : nat) (c d : nat -> R) (F : vec I -> vec I) (h : R) (x : nat -> vec I) (n : nat) : Prop :=
  vsum (S k) (fun j => c j *v x (n + j)%nat) = h *v vsum (S k) (fun j => d j *v F (x (n + j)%nat)).
(** order conditions up to p *)
Definition multistep_order (k p : nat) (c d : nat -> R) : Prop :=
  rsum (S k) c = 0 /\ forall i, (i < p)%nat -> rsum (S k) (fun j => c j * INR j ^ S i) = INR (S i) * rsum (S k) (fun j => d j * INR j ^ i).
