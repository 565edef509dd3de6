(** Textbook diagonally implicit and implicit-explicit (additive) Runge-Kutta steps
    and their order conditions. *)
From Verif Require Import Base Vec.
Open Scope R_scope.

(** y1 is a result of one step of the s-stage diagonally implicit method with stage
    coefficients A i j (j <= i < s) and weights b j. *)
Definition dirk_step {I} (A : nat -> nat -> R) (b : nat -> R) (s : nat) (F : vec I -> vec I) (dt : R)
  (y y1 : vec I) : Prop :=
  exists k : nat -> vec I,
    (forall i, (i < s)%nat -> k i = F (y +v dt *v vsum (S i) (fun j => A i j *v k j))) /\
    y1 = y +v dt *v vsum s (fun j => b j *v k j).

(** Additive method for dy/dt = Fi(y) + Fe(y), Fi implicit, Fe explicit, with
    tableaus (A, b) and (D, e). *)
Definition imex_step {I} (A D : nat -> nat -> R) (b e : nat -> R) (s : nat) (Fi Fe : vec I -> vec I) (dt : R)
  (y y1 : vec I) : Prop :=
  exists Y : nat -> vec I,
    (forall i, (i < s)%nat ->
       Y i = y +v dt *v (vsum (S i) (fun j => A i j *v Fi (Y j)) +v vsum i (fun j => D i j *v Fe (Y j)))) /\
    y1 = y +v dt *v (vsum s (fun j => b j *v Fi (Y j)) +v vsum s (fun j => e j *v Fe (Y j))).

(** The same with a limiter applied to every implicit stage and to the result; the
    stages before number [first] equal y itself. *)
Definition imex_step_limited {I} (A D : nat -> nat -> R) (b e : nat -> R) (s first : nat)
  (L Fi Fe : vec I -> vec I) (dt : R) (y y1 : vec I) : Prop :=
  exists Y Z : nat -> vec I,
    (forall i, (i < first)%nat -> Y i = y) /\
    (forall i, (first <= i < s)%nat ->
       Z i = y +v dt *v (vsum i (fun j => A i j *v Fi (Y j)) +v A i i *v Fi (Z i) +v vsum i (fun j => D i j *v Fe (Y j)))
       /\ Y i = L (Z i)) /\
    y1 = L (y +v dt *v (vsum s (fun j => b j *v Fi (Y j)) +v vsum s (fun j => e j *v Fe (Y j)))).

(** Order conditions of a pair (A,b), (D,e) of s-stage tableaus. *)
Definition row_sum (s : nat) (A : nat -> nat -> R) (i : nat) : R := rsum s (fun j => A i j).
Definition dot (s : nat) (b c : nat -> R) : R := rsum s (fun i => b i * c i).
Definition consistent (s : nat) (b : nat -> R) := rsum s b = 1.
Definition pair_order1 s (b e : nat -> R) := consistent s b /\ consistent s e.
(** second order, including the coupling conditions *)
Definition pair_order2 s A D b e :=
  pair_order1 s b e /\
  (forall w M, In w [b; e] -> In M [A; D] -> dot s w (row_sum s M) = 1/2).
(** third order: all combinations of weights and tableaus *)
Definition pair_order3 s A D b e :=
  pair_order2 s A D b e /\
  (forall w M N, In w [b; e] -> In M [A; D] -> In N [A; D] ->
     dot s w (fun i => row_sum s M i * row_sum s N i) = 1/3 /\
     dot s w (fun i => rsum s (fun j => M i j * row_sum s N j)) = 1/6).
Definition single_order2 s A b := consistent s b /\ dot s b (row_sum s A) = 1/2.

(** Condition under which a Runge-Kutta method conserves quadratic invariants. *)
Definition symplectic (s : nat) (A : nat -> nat -> R) (b : nat -> R) :=
  forall i j, (i < s)%nat -> (j < s)%nat -> b i * A i j + b j * A j i = b i * b j.
