(** Textbook explicit Runge-Kutta steps and order conditions.  Does not mention the
    code's data layout except the shape of the coefficient array: row m of the
    array holds the coefficients of stage m+1, the last row holds the weights. *)
From Verif Require Import Base Vec.
Open Scope R_scope.

Definition a_coef (A : nat -> nat -> R) (i j : nat) : R := match i with O => 0 | S m => A m j end.
Definition b_coef (A : nat -> nat -> R) (s j : nat) : R := A (s - 1)%nat j.

(** y1 is the result of one s-stage explicit Runge-Kutta step of size dt from y. *)
Definition erk_step {I} (A : nat -> nat -> R) (s : nat) (F : vec I -> vec I) (dt : R) (y y1 : vec I) : Prop :=
  exists k : nat -> vec I,
    (forall i, (i < s)%nat -> k i = F (y +v dt *v vsum i (fun j => a_coef A i j *v k j))) /\
    y1 = y +v dt *v vsum s (fun j => b_coef A s j *v k j).

(** The same with a limiter L applied to the input and the result; G maps each
    (unlimited) stage value to its tendency, e.g. G z = F (L z) + P z. *)
Definition erk_step_limited {I} (A : nat -> nat -> R) (s : nat) (G L : vec I -> vec I) (dt : R) (x y1 : vec I) : Prop :=
  exists k : nat -> vec I,
    (forall i, (i < s)%nat -> k i = G (L x +v dt *v vsum i (fun j => a_coef A i j *v k j))) /\
    y1 = L (L x +v dt *v vsum s (fun j => b_coef A s j *v k j)).

(** n successive steps. *)
Fixpoint erk_steps {I} (A : nat -> nat -> R) (s : nat) (F : vec I -> vec I) (dt : R) (n : nat) (y y1 : vec I) : Prop :=
  match n with
  | O => y1 = y
  | S m => exists z, erk_steps A s F dt m y z /\ erk_step A s F dt z y1
  end.

(** c_i = sum_j a_ij. *)
Definition c_coef (A : nat -> nat -> R) (i : nat) : R := rsum i (fun j => a_coef A i j).

(** Order conditions (Butcher) of an explicit s-stage method. *)
Definition order1 A s := rsum s (b_coef A s) = 1.
Definition order2 A s := rsum s (fun i => b_coef A s i * c_coef A i) = 1/2.
Definition order3a A s := rsum s (fun i => b_coef A s i * c_coef A i ^ 2) = 1/3.
Definition order3b A s := rsum s (fun i => b_coef A s i * rsum i (fun j => a_coef A i j * c_coef A j)) = 1/6.
Definition order4a A s := rsum s (fun i => b_coef A s i * c_coef A i ^ 3) = 1/4.
Definition order4b A s := rsum s (fun i => b_coef A s i * (c_coef A i * rsum i (fun j => a_coef A i j * c_coef A j))) = 1/8.
Definition order4c A s := rsum s (fun i => b_coef A s i * rsum i (fun j => a_coef A i j * c_coef A j ^ 2)) = 1/12.
Definition order4d A s := rsum s (fun i => b_coef A s i * rsum i (fun j => a_coef A i j * rsum j (fun l => a_coef A j l * c_coef A l))) = 1/24.

Definition has_order1 A s := order1 A s.
Definition has_order2 A s := order1 A s /\ order2 A s.
Definition has_order3 A s := has_order2 A s /\ order3a A s /\ order3b A s.
Definition has_order4 A s := has_order3 A s /\ order4a A s /\ order4b A s /\ order4c A s /\ order4d A s.
