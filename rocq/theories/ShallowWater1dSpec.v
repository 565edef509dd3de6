(** Shallow water in one dimension: definitions (no code is modelled here).  Fields are given by value and first and second derivative at the points of a quadrature rule. *)
From Verif Require Import Base Vec.
Open Scope R_scope.

Record point1 := { val : R; d1 : R; d2 : R }.
Definition field1 := nat -> point1.
(** velocity along and across the line, depth *)
Record state1 := { u1 : field1; v1 : field1; D1 : field1 }.
Definition const1 (c : R) : field1 := fun _ => {| val := c; d1 := 0; d2 := 0 |}.
(** sum and product of fields, with the rules of differentiation *)
Definition add1 (a b : field1) : field1 := fun k => {| val := val (a k) + val (b k); d1 := d1 (a k) + d1 (b k); d2 := d2 (a k) + d2 (b k) |}.
Definition mul1 (a b : field1) : field1 := fun k => {| val := val (a k) * val (b k); d1 := d1 (a k) * val (b k) + val (a k) * d1 (b k);
  d2 := d2 (a k) * val (b k) + 2 * (d1 (a k) * d1 (b k)) + val (a k) * d2 (b k) |}.
Definition scal1 (c : R) (a : field1) : field1 := mul1 (const1 c) a.
Definition perturb (e : R) (X Y : state1) : state1 := {| u1 := add1 (u1 X) (scal1 e (u1 Y)); v1 := add1 (v1 X) (scal1 e (v1 Y)); D1 := add1 (D1 X) (scal1 e (D1 Y)) |}.
(** integrals by n points with weights w *)
Definition integral (n : nat) (w : nat -> R) (f : nat -> R) : R := rsum n (fun k => w k * f k).
(** the integral of the derivative of a vanishes (a is continuous and periodic, or zero at the ends, and the quadrature is exact for it) *)
Definition no_net_flux (n : nat) (w : nat -> R) (a : field1) : Prop := integral n w (fun k => d1 (a k)) = 0.

(** The equations: what is tested with T.  Coriolis parameter f, gravity g. *)
Definition sw_tendency (f g : R) (X T : state1) (k : nat) : R :=
  let u := u1 X k in let v := v1 X k in let D := D1 X k in
  val (u1 T k) * (val u * d1 u - f * val v + g * d1 D) + val (v1 T k) * (val u * d1 v + f * val u) + val (D1 T k) * (d1 u * val D + val u * d1 D).
(** The linear equations of the documentation about rest with depth H *)
Definition linear_sw_tendency (f g H : R) (X T : state1) (k : nat) : R :=
  val (u1 T k) * (- f * val (v1 X k) + g * d1 (D1 X k)) + val (v1 T k) * (f * val (u1 X k)) + val (D1 T k) * (H * d1 (u1 X k)).
