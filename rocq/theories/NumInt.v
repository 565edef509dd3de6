(** Model of gusto/initialisation/numerical_integrator.py: tabulation of a one-dimensional integral and its evaluation.
    Simplifications: real arithmetic instead of floating point; the expression is a function applied to every element of the array of points
    (the numpy functions it has to be made of are); the code of numpy.linspace and numpy.interp is modelled from their documentation and
    (for the search of the interval) source. *)
From Coq Require Import List Reals Arith.
Import ListNotations.
From Verif Require Import Base.
Open Scope R_scope.

(** numpy.linspace(lo, hi, n), n >= 0 *)
(** Used at l.21. *)
Definition linspace (lo hi : R) (n : nat) : list R := map (fun i => lo + INR i * ((hi - lo) / INR (n - 1))) (seq 0 n).
(** The slices l[::2], l[k:], l[:-1] and element-wise operations *)
(** Auxiliary, nothing in the code by itself. *)
Fixpoint every_other {A} (l : list A) : list A := match l with [] => [] | [a] => [a] | a :: _ :: r => a :: every_other r end.
(** Auxiliary, nothing in the code by itself. *)
Fixpoint zipR (f : R -> R -> R) (l r : list R) : list R := match l, r with a :: l, b :: r => f a b :: zipR f l r | _, _ => [] end.

(** NumericalIntegral: __init__, l.13-23.  linspace refuses a negative number of points: 2*0-1 for the doubled points. *)
Record integral := { i_lo : R; i_hi : R; i_n : nat; i_x : list R; i_x2 : list R; i_cumulative : option (list R) (* Some: tabulated *) }.
(** l.13-22. *)
Definition new_integral (lo hi : R) (n : nat) : res integral :=
  match n with
  | O => Err ValueError
  | _ => Ok {| i_lo := lo; i_hi := hi; i_n := n; i_x := linspace lo hi n; i_x2 := linspace lo hi (2 * n - 1); i_cumulative := None |}
  end.
(** l.41-42: Simpson's rule on every interval *)
Definition interval_areas (x f : list R) : list R :=
  zipR Rmult (map (fun d => d / 6) (zipR Rminus (skipn 1 x) (removelast x)))
    (zipR Rplus (zipR Rplus (every_other (skipn 2 f)) (map (Rmult 4) (every_other (skipn 1 f)))) (every_other (removelast f))).
(** l.45-46: cumulative sums *)
Fixpoint cumulate (c : R) (areas : list R) : list R := match areas with [] => [c] | a :: r => c :: cumulate (c + a) r end.
(** tabulate, l.25-48 *)
Definition tabulate (I : integral) (f : R -> R) : integral :=
  {| i_lo := i_lo I; i_hi := i_hi I; i_n := i_n I; i_x := i_x I; i_x2 := i_x2 I; i_cumulative := Some (cumulate 0 (interval_areas (i_x I) (map f (i_x2 I)))) |}.

(** numpy.interp(p, x, y).  The search first compares with the ends of the array, whatever its order. *)
(** Used at l.48-63. *)
Fixpoint bracket (p : R) (x y : list R) : R :=
  match x, y with
  | x0 :: ((x1 :: _) as x'), y0 :: ((y1 :: _) as y') =>
      if Rlt_dec p x1 then y0 + (y1 - y0) / (x1 - x0) * (p - x0) else bracket p x' y'
  | _, y0 :: _ => y0
  | _, [] => 0
  end.
(** Used at l.48-63. *)
Definition interp (p : R) (x y : list R) : R :=
  if Rlt_dec (last x 0) p then last y 0
  else if Rlt_dec p (hd 0 x) then hd 0 y
  else bracket p x y.
(** evaluate_at, l.50-63 *)
Definition evaluate_at (I : integral) (p : R) : res R :=
  match i_cumulative I with None => Err RuntimeError | Some c => Ok (interp p (i_x I) c) end.
