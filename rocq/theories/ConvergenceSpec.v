(** Convergence of time discretisations for nonlinear problems: definitions (no code is modelled here).
    The problem is dy/dt = F_0(y) + ... + F_{m-1}(y) for coefficient vectors over a finite index set I; the norm is the largest coefficient. *)
From Verif Require Import Base Vec.
Open Scope R_scope.

Definition finite_index (I : Type) : Prop := exists l : list I, forall i, In i l.
(** the largest coefficient of v is at most rho *)
Definition sup_le {I} (v : vec I) (rho : R) : Prop := forall i, Rabs (v i) <= rho.
(** bounded linear, bilinear, trilinear maps *)
Definition bounded1 {I} (M : R) (D : vec I -> vec I) : Prop := linear_op D /\ forall v r, sup_le v r -> sup_le (D v) (M * r).
Definition bounded2 {I} (M : R) (D : vec I -> vec I -> vec I) : Prop :=
  (forall w, linear_op (D w)) /\ (forall w, linear_op (fun v => D v w)) /\ forall v w r s, sup_le v r -> sup_le w s -> sup_le (D v w) (M * (r * s)).
Definition bounded3 {I} (M : R) (D : vec I -> vec I -> vec I -> vec I) : Prop :=
  (forall v w, linear_op (D v w)) /\ (forall v w, linear_op (fun u => D v u w)) /\ (forall v w, linear_op (fun u => D u v w)) /\
  forall u v w r s t, sup_le u r -> sup_le v s -> sup_le w t -> sup_le (D u v w) (M * (r * (s * t))).
(** the Taylor polynomial of F at x with p terms, 1 <= p <= 4 *)
Definition taylor {I} (p : nat) (Fx : vec I) (D1 : vec I -> vec I) (D2 : vec I -> vec I -> vec I) (D3 : vec I -> vec I -> vec I -> vec I) (v : vec I) : vec I :=
  Fx +v (if Nat.leb 2 p then D1 v else vzero) +v (if Nat.leb 3 p then (1/2) *v D2 v v else vzero) +v (if Nat.leb 4 p then (1/6) *v D3 v v v else vzero).
(** F has bounded derivatives up to order p - 1 and a Taylor remainder of order p at the points of S, uniformly *)
Definition smooth {I} (p : nat) (F : vec I -> vec I) (S : vec I -> Prop) : Prop :=
  exists (D1 : vec I -> vec I -> vec I) (D2 : vec I -> vec I -> vec I -> vec I) (D3 : vec I -> vec I -> vec I -> vec I -> vec I) (M r : R), 0 < r /\ 0 <= M /\
  forall x, S x -> sup_le (F x) M /\ bounded1 M (D1 x) /\ bounded2 M (D2 x) /\ bounded3 M (D3 x) /\
  forall v rho, sup_le v rho -> rho <= r -> sup_le (F (x +v v) -v taylor p (F x) (D1 x) (D2 x) (D3 x) v) (M * rho ^ p).
Definition lipschitz {I} (L : R) (F : vec I -> vec I) (U : vec I -> Prop) : Prop :=
  0 <= L /\ forall x z rho, U x -> U z -> sup_le (x -v z) rho -> sup_le (F x -v F z) (L * rho).
(** y is a solution from t0 to T *)
Definition solves {I} (m : nat) (F : nat -> vec I -> vec I) (y : R -> vec I) (t0 T : R) : Prop :=
  forall t i, t0 <= t <= T -> derivable_pt_lim (fun u => y u i) t (vsum m (fun q => F q (y t)) i).
Definition along {I} (y : R -> vec I) (t0 T : R) (x : vec I) : Prop := exists t, t0 <= t <= T /\ x = y t.
(** U contains a neighbourhood of the solution *)
Definition neighbourhood {I} (y : R -> vec I) (t0 T : R) (U : vec I -> Prop) : Prop :=
  exists r, 0 < r /\ forall t v, t0 <= t <= T -> sup_le v r -> U (y t +v v).

(** Additive Runge-Kutta method with m parts and s stages: coefficients a q i j, weights b q i.  One step from x to x' of size h, with all stage values in U *)
Definition ark_step {I} (m s : nat) (a : nat -> nat -> nat -> R) (b : nat -> nat -> R) (F : nat -> vec I -> vec I) (U : vec I -> Prop) (h : R) (x x' : vec I) : Prop :=
  exists k : nat -> nat -> vec I,
    (forall i, (i < s)%nat -> U (x +v h *v vsum m (fun r => vsum s (fun j => a r i j *v k r j)))) /\
    (forall q i, (q < m)%nat -> (i < s)%nat -> k q i = F q (x +v h *v vsum m (fun r => vsum s (fun j => a r i j *v k r j)))) /\
    x' = x +v h *v vsum m (fun q => vsum s (fun i => b q i *v k q i)).

(** Order conditions up to p, met within delta *)
Section Order.
Variables (m s : nat) (a : nat -> nat -> nat -> R) (b : nat -> nat -> R).
Definition cc (r i : nat) : R := rsum s (fun j => a r i j).
Definition dd (r t i : nat) : R := rsum s (fun j => a r i j * cc t j).
Definition near_to (delta x y : R) : Prop := Rabs (x - y) <= delta.
Definition ark_order (p : nat) (delta : R) : Prop :=
  ((1 <= p)%nat -> forall q, (q < m)%nat -> near_to delta (rsum s (fun i => b q i)) 1) /\
  ((2 <= p)%nat -> forall q r, (q < m)%nat -> (r < m)%nat -> near_to delta (rsum s (fun i => b q i * cc r i)) (1/2)) /\
  ((3 <= p)%nat -> forall q r t, (q < m)%nat -> (r < m)%nat -> (t < m)%nat ->
     near_to delta (rsum s (fun i => b q i * (cc r i * cc t i))) (1/3) /\ near_to delta (rsum s (fun i => b q i * dd r t i)) (1/6)) /\
  ((4 <= p)%nat -> forall q r t u, (q < m)%nat -> (r < m)%nat -> (t < m)%nat -> (u < m)%nat ->
     near_to delta (rsum s (fun i => b q i * (cc r i * (cc t i * cc u i)))) (1/4) /\
     near_to delta (rsum s (fun i => b q i * (cc r i * dd t u i))) (1/8) /\
     near_to delta (rsum s (fun i => b q i * rsum s (fun j => a r i j * (cc t j * cc u j)))) (1/12) /\
     near_to delta (rsum s (fun i => b q i * rsum s (fun j => a r i j * dd t u j))) (1/24)).
Definition coefficients_at_most (B : R) : Prop := forall q i j, Rabs (a q i j) <= B /\ Rabs (b q i) <= B.
End Order.

(** y solves dy/dt = F(y) from t0 to T; F is Lipschitz on U, U contains a neighbourhood of the solution, and F is smooth along the solution *)
Definition solution_of {I} (F : vec I -> vec I) (y : R -> vec I) (t0 T : R) : Prop :=
  forall t i, t0 <= t <= T -> derivable_pt_lim (fun u => y u i) t (F (y t) i).
Definition regular {I} (p : nat) (F : vec I -> vec I) (y : R -> vec I) (t0 T L : R) (U : vec I -> Prop) : Prop :=
  lipschitz L F U /\ neighbourhood y t0 T U /\ smooth p F (along y t0 T).
Definition everywhere {I} (v : vec I) : Prop := True.
(** step sizes h 0, ..., h (n-1), none larger than hm, staying before the final time *)
Definition step_sizes (h : nat -> R) (hm : R) (n : nat) (t0 T : R) : Prop :=
  0 < hm /\ (forall k, (k < n)%nat -> 0 < h k <= hm) /\ t0 + rsum n h <= T.
