(** Dissipative problems and energies: definitions (no code is modelled here).
    The problem is dy/dt + N(y) = 0 on coefficient vectors; B is an inner product (for instance the mass matrix), whose
    quadratic form is the energy. *)
From Verif Require Import Base Vec.
Open Scope R_scope.

Definition inner_product {I} (B : vec I -> vec I -> R) : Prop :=
  (forall x y z, B x (y +v z) = B x y + B x z) /\ (forall x a y, B x (a *v y) = a * B x y) /\ (forall x y, B x y = B y x) /\
  (forall x, 0 <= B x x) /\ (forall x, B x x = 0 -> x = vzero).
(** solutions of dy/dt + N(y) = 0 do not move apart *)
Definition dissipative {I} (B : vec I -> vec I -> R) (N : vec I -> vec I) : Prop :=
  forall x y, 0 <= B (x -v y) (N x -v N y).
(** linear problems with a decaying energy: waves (B x (N x) = 0), damping, diffusion, upwind transport, ... *)
Definition linear_dissipative {I} (B : vec I -> vec I -> R) (N : vec I -> vec I) : Prop :=
  linear_op N /\ forall x, 0 <= B x (N x).
(** n steps of a scheme *)
Fixpoint repeated {I} (step : vec I -> vec I -> Prop) (n : nat) (x y : vec I) : Prop :=
  match n with O => y = x | S k => exists z, step x z /\ repeated step k z y end.
(** the energy never grows, whatever the number of steps *)
Definition energy_stable {I} (B : vec I -> vec I -> R) (step : vec I -> vec I -> Prop) : Prop :=
  forall n x y, repeated step n x y -> B y y <= B x x.
(** two runs never move apart *)
Definition contractive {I} (B : vec I -> vec I -> R) (step : vec I -> vec I -> Prop) : Prop :=
  forall n x y x' y', repeated step n x y -> repeated step n x' y' -> B (y -v y') (y -v y') <= B (x -v x') (x -v x').
