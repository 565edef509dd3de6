(** Textbook linear multistep methods for y' = F(y), and polynomial solutions. *)
From Verif Require Import Base Vec.
Open Scope R_scope.

(** y' = F(y), step h.  y1 is a result of one step from the levels ys (oldest first). *)
Definition bdf2_step {I} (F : vec I -> vec I) (h : R) (y0 y1 y2 : vec I) : Prop :=
  y2 = (4/3) *v y1 -v (1/3) *v y0 +v (2/3 * h) *v F y2.
Definition leapfrog_step {I} (F : vec I -> vec I) (h : R) (y0 y1 y2 : vec I) : Prop :=
  y2 = y0 +v (2 * h) *v F y1.
Definition forward_euler_step {I} (F : vec I -> vec I) (h : R) (y y1 : vec I) : Prop := y1 = y +v h *v F y.
Definition backward_euler_step {I} (F : vec I -> vec I) (h : R) (y y1 : vec I) : Prop := y1 = y +v h *v F y1.
Definition trapezium_step {I} (F : vec I -> vec I) (h : R) (y y1 : vec I) : Prop :=
  y1 = y +v (h / 2) *v F y +v (h / 2) *v F y1.
(** y_(n+1) = y_n + h (bl F(y_(n+1)) + sum_m b_m F(y_(n-m))); ys m is the level m steps
    back, b m its weight, k the number of levels used. *)
Definition adams_step {I} (k : nat) (b : nat -> R) (bl : R) (F : vec I -> vec I) (h : R) (ys : nat -> vec I) (y1 : vec I) : Prop :=
  y1 = ys 0%nat +v h *v (bl *v F y1 +v vsum k (fun m => b m *v F (ys m))).

(** The standard Adams coefficients, newest level first. *)
Definition ab_coefficients (k : nat) : list R :=
  match k with
  | 1%nat => [1]
  | 2%nat => [3/2; -1/2]
  | 3%nat => [23/12; -16/12; 5/12]
  | 4%nat => [55/24; -59/24; 37/24; -9/24]
  | 5%nat => [1901/720; -2774/720; 2616/720; -1274/720; 251/720]
  | _ => []
  end.
Definition am_coefficients (k : nat) : R * list R :=
  match k with
  | 1%nat => (1/2, [1/2])
  | 2%nat => (5/12, [8/12; -1/12])
  | 3%nat => (9/24, [19/24; -5/24; 1/24])
  | 4%nat => (251/720, [646/720; -264/720; 106/720; -19/720])
  | _ => (0, [])
  end.

(** Vector-valued polynomials of degree at most q, and their time derivative. *)
Definition poly {I} (q : nat) (c : nat -> vec I) (t : R) : vec I := vsum (S q) (fun j => (t ^ j) *v c j).
Definition dpoly {I} (q : nat) (c : nat -> vec I) (t : R) : vec I :=
  vsum q (fun j => (INR (S j) * t ^ j) *v c (S j)).
(** p solves y' = F(y). *)
Definition poly_solution {I} (q : nat) (c : nat -> vec I) (F : vec I -> vec I) : Prop :=
  forall t, F (poly q c t) = dpoly q c t.
