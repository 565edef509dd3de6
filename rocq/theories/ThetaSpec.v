(** Textbook theta method and TR-BDF2, with a physics tendency P. *)
From Verif Require Import Base Vec.
Open Scope R_scope.

(** y1 = y + h (1-theta) F(y) + h theta F(y1) + h P(y) *)
Definition theta_step {I} (theta : R) (F P : vec I -> vec I) (h : R) (y y1 : vec I) : Prop :=
  y1 = y +v (h * (1 - theta)) *v F y +v (h * theta) *v F y1 +v h *v P y.
Fixpoint steps {I} (step : vec I -> vec I -> Prop) (n : nat) (y y1 : vec I) : Prop :=
  match n with O => y1 = y | S k => exists z, step y z /\ steps step k z y1 end.

(** TR-BDF2 with parameter g. *)
Definition tr_bdf2_step {I} (g : R) (F : vec I -> vec I) (h : R) (y y1 : vec I) : Prop :=
  exists yg, yg = y +v (h * g / 2) *v F y +v (h * g / 2) *v F yg /\
    y1 = (1 / (g * (2 - g))) *v yg -v ((1 - g) ^ 2 / (g * (2 - g))) *v y +v ((1 - g) / (2 - g) * h) *v F y1.

(** Order conditions of a tableau given by its stages (row sums c) and weights. *)
Definition order2 (s : nat) (A : nat -> nat -> R) (b : nat -> R) : Prop :=
  rsum s b = 1 /\ rsum s (fun i => b i * rsum s (A i)) = 1/2.
