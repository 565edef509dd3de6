(** Models of gusto/time_discretisation/imex_runge_kutta.py and
    implicit_runge_kutta.py.

    A residual  <x_out - x1> + dt*a*<terms> = 0  is written on coefficient vectors
    after applying the inverse mass matrix; Ni, Ne, Ns are the (left-hand side)
    operators of the terms labelled implicit, explicit and source.  A solver call is
    any value satisfying its residual: the step is a relation between the input and
    the results it may produce.  Simplifications: exact solves, linear time
    derivative, all physics schemes together are one evaluation function. *)
From Verif Require Import Base Vec RK.
Open Scope R_scope.

(** Relational for-loop. *)
(** Auxiliary, nothing in the code by itself. *)
Fixpoint rfold {S} (step : S -> nat -> S -> Prop) (l : list nat) (st st' : S) : Prop :=
  match l with
  | [] => st' = st
  | i :: l' => exists mid, step st i mid /\ rfold step l' mid st'
  end.

(* ------------------------------------------------------------------ *)
(** ** IMEXRungeKutta *)

(** __init__ l.62-101: the keyword limiter is not forwarded to the base class, whose
    default for it is None (time_discretisation.py l.68). *)
Definition imex_limiter {X} (passed : option X) : option X := None.
(** ExplicitRungeKutta.__init__, explicit_runge_kutta.py l.121-126: forwarded. *)
Definition explicit_limiter {X} (passed : option X) : option X := passed.

Section IMEX.
  Context {I : Type}.
  Variables (A D : nat -> nat -> R) (s : nat) (dt : R) (Ni Ne Ns ev lim : vec I -> vec I).

  (** The fields of l.109-120, 139-141. *)
  Record imex_state := { xs : nat -> vec I; source : nat -> vec I; xo : vec I }.

  (** l.92-99: zero_first_stage; solver_start_stage. *)
  Definition first_stage (f : nat) : Prop :=
    ((forall j, (j < s)%nat -> A 0 j = 0) /\ f = 1%nat) \/ (~ (forall j, (j < s)%nat -> A 0 j = 0) /\ f = 0%nat).

  (** res(stage), l.143-195 *)
  Definition imex_res (st : imex_state) (x1 : vec I) (stage : nat) (x_out : vec I) : vec I :=
    x_out -v x1
    +v vsum stage (fun i => (A stage i * dt) *v Ni (xs st i) +v (D stage i * dt) *v Ne (xs st i)
                            +v (D stage i * dt) *v Ns (source st i))
    +v (A stage stage * dt) *v Ni x_out.

  (** final_res, l.197-237 *)
  Definition imex_final_res (st : imex_state) (x1 : vec I) (x_out : vec I) : vec I :=
    x_out -v x1
    +v vsum s (fun i => (A s i * dt) *v Ni (xs st i) +v (D s i * dt) *v Ne (xs st i)
                        +v (D s i * dt) *v Ns (source st i)).

  (** Python index stage-1: -1 is the last one. *)
  (** l.265-277. *)
  Definition prev_index (stage : nat) : nat := match stage with O => (s - 1)%nat | S i => i end.

  (** loop body of apply, l.265-277 *)
  Definition imex_stage (x1 : vec I) (st : imex_state) (stage : nat) (st' : imex_state) : Prop :=
    let src := upd (source st) (prev_index stage) (ev (xs st (prev_index stage))) in
    exists sol, imex_res {| xs := xs st; source := src; xo := xo st |} x1 stage sol = vzero /\
      st' = {| xs := upd (xs st) stage (lim sol); source := src; xo := lim sol |}.

  (** apply, l.258-287 *)
  Definition imex_apply (st : imex_state) (x_in : vec I) (x_out : vec I) : Prop :=
    let st0 := {| xs := upd (xs st) 0 x_in; source := source st; xo := x_in |} in
    exists f st1, first_stage f /\ rfold (imex_stage x_in) (seq f (s - f)) st0 st1 /\
      let src := upd (source st1) (s - 1) (ev (xs st1 (s - 1)%nat)) in
      exists sol, imex_final_res {| xs := xs st1; source := src; xo := xo st1 |} x_in sol = vzero /\
        x_out = lim sol.
End IMEX.

(** Term labels of IMEXRungeKutta.setup, l.122-137: every remaining term must carry
    one of these labels. *)
Record term_labels := { is_implicit : bool; is_explicit : bool; is_td : bool; is_source : bool }.
(** l.122-137. *)
Definition imex_setup_ok (residual : list term_labels) : res unit :=
  if existsb (fun t => negb (is_implicit t) && negb (is_explicit t) && negb (is_td t) && negb (is_source t)) residual
  then Err NotImplementedError else Ok tt.

(** Tableaus: rows 0..s-1 stage coefficients, row s weights. *)
(** IMEX_Euler l.324-325 *)
Definition imex_euler_imp := table [[0; 0]; [0; 1]; [0; 1]].
(** l.324-325. *)
Definition imex_euler_exp := table [[0; 0]; [1; 0]; [1; 0]].
(** IMEX_ARS3 l.371-373 *)
Definition ars3_g : R := (3 + sqrt 3) / 6.
(** l.371-376. *)
Definition ars3_imp := let g := ars3_g in table [[0; 0; 0]; [0; g; 0]; [0; 1 - 2 * g; g]; [0; 0.5; 0.5]].
(** l.371-376. *)
Definition ars3_exp := let g := ars3_g in table [[0; 0; 0]; [g; 0; 0]; [g - 1; 2 * (1 - g); 0]; [0; 0.5; 0.5]].
(** IMEX_ARK2 l.420-424 *)
Definition ark2_g : R := 1 - 1 / sqrt 2.
(** l.420-424. *)
Definition ark2_d : R := 1 / (2 * sqrt 2).
(** l.420-424. *)
Definition ark2_a : R := 1 / 6 * (3 + 2 * sqrt 2).
(** l.420-426. *)
Definition ark2_imp := let g := ark2_g in let d := ark2_d in table [[0; 0; 0]; [g; g; 0]; [d; d; g]; [d; d; g]].
(** l.420-426. *)
Definition ark2_exp := let g := ark2_g in let d := ark2_d in let a := ark2_a in
  table [[0; 0; 0]; [2 * g; 0; 0]; [1 - a; a; 0]; [d; d; g]].
(** IMEX_SSP3 l.468-470 *)
Definition ssp3_imp := let g := 1 - 1 / sqrt 2 in
  table [[g; 0; 0]; [1 - 2 * g; g; 0]; [0.5 - g; 0; g]; [1 / 6; 1 / 6; 2 / 3]].
(** l.468-472. *)
Definition ssp3_exp := table [[0; 0; 0]; [1; 0; 0]; [0.25; 0.25; 0]; [1 / 6; 1 / 6; 2 / 3]].
(** IMEX_Trap2 l.513-515 *)
Definition trap2_imp := let e := 0 in
  table [[0; 0; 0; 0]; [e; 0; 0; 0]; [0.5; 0; 0.5; 0]; [0.5; 0; 0; 0.5]; [0.5; 0; 0; 0.5]].
(** l.513-518. *)
Definition trap2_exp :=
  table [[0; 0; 0; 0]; [1; 0; 0; 0]; [0.5; 0.5; 0; 0]; [0.5; 0; 0.5; 0]; [0.5; 0; 0.5; 0]].

(* ------------------------------------------------------------------ *)
(** ** ImplicitRungeKutta *)
Section IRK.
  Context {I : Type}.
  Variables (A : nat -> nat -> R) (s : nat) (dt : R) (N : vec I -> vec I).

  (** Increment formulation.  [solvers] is a cached_property: all stage solvers are
      built at the first access, from the expression self.xnph of that moment, i.e.
      x1 + A[stage,stage]*dt*x_out with the diagonal coefficient of the stage being
      solved then (l.180-198, 212-217, 225-233).  [cached] is that coefficient. *)
  Record irk_state := { cached : option R; kst : nat -> vec I }.

  (** solve_stage, increment, l.219-241: residual l.181-192: x_out + N(xnph) = 0. *)
  Definition irk_inc_stage (x0 : vec I) (st : irk_state) (stage : nat) (st' : irk_state) : Prop :=
    let x1 := fold_left (fun x i => x +v (A stage i * dt) *v kst st i) (seq 0 stage) x0 in
    let diag := match cached st with Some d => d | None => A stage stage end in
    exists sol, sol +v N (x1 +v (diag * dt) *v sol) = vzero /\
      st' = {| cached := Some diag; kst := upd (kst st) stage sol |}.

  (** apply, l.250-258 *)
  Definition irk_increment (st : irk_state) (x_in x_out : vec I) : Prop :=
    exists st1, rfold (irk_inc_stage x_in) (seq 0 s) st st1 /\
      x_out = fold_left (fun x i => x +v (A s i * dt) *v kst st1 i) (seq 0 s) x_in.

  (** Predictor: res l.125-155, solve_stage l.243-247. *)
  Definition irk_pred_stage (x0 : vec I) (xs : nat -> vec I) (stage : nat) (xs' : nat -> vec I) : Prop :=
    exists sol,
      sol -v x0 +v vsum stage (fun i => (A stage i * dt) *v N (xs i)) +v (A stage stage * dt) *v N sol = vzero /\
      xs' = upd xs stage sol.
  (** apply l.259-262 with final_res l.157-177 *)
  Definition irk_predictor (xs : nat -> vec I) (x_in x_out : vec I) : Prop :=
    exists xs1, rfold (irk_pred_stage x_in) (seq 0 s) xs xs1 /\
      x_out -v x_in +v vsum s (fun i => (A s i * dt) *v N (xs1 i)) = vzero.

End IRK.

(** Physics terms: the residual contains  - <test, source>  with the source Functions
    together one vector [src], so that N(v) becomes N(v) - src.  No method of the class
    (l.41-262) calls evaluate_source, and setup (l.102-123) does not refuse source
    terms: the vector keeps its content. *)
Definition irk_increment_physics {I} (A : nat -> nat -> R) (s : nat) (dt : R) (N : vec I -> vec I)
    (st : irk_state) (src x_in x_out src' : vec I) : Prop :=
  src' = src /\ irk_increment A s dt (fun v => N v -v src) st x_in x_out.
(** implicit_runge_kutta.py l.41-262. *)
Definition irk_predictor_physics {I} (A : nat -> nat -> R) (s : nat) (dt : R) (N : vec I -> vec I)
    (xs : nat -> vec I) (src x_in x_out src' : vec I) : Prop :=
  src' = src /\ irk_predictor A s dt (fun v => N v -v src) xs x_in x_out.


(** ImplicitMidpoint l.297, QinZhang l.337 *)
Definition tab_ImplicitMidpoint := table [[0.5]; [1]].
(** implicit_runge_kutta.py l.337-338. *)
Definition tab_QinZhang := table [[0.25; 0]; [0.5; 0.25]; [0.5; 0.5]].
