(** Model of gusto/initialisation/hydrostatic_initialisation.py.
    The variational problems are relations: a pair (v, exner) of trial functions is a solution if the equation holds for
    every test function of the space.  Linear and nonlinear solvers are taken to find a solution.  The integrals are the
    quadrature sums of Transport.v; fields are those of Equations.v and Compressible.v.  Simplification: dx and
    dx(degree=...) are the same rule. *)
From Coq Require Import Reals Lia.
From Verif Require Import Base Vec Transport CommonForms Equations Thermo Compressible.
Open Scope R_scope.

(** Auxiliary, nothing in the code by itself. *)
Inductive side := Bottom | Top | Lateral.
(** Auxiliary, nothing in the code by itself. *)
Definition side_eqb (a b : side) : bool := match a, b with Bottom, Bottom | Top, Top | Lateral, Lateral => true | _, _ => false end.

Section Balance.
Variables (G : geometry) (d : nat) (kvec : nat -> nat -> R).
Variable side_of : nat -> side.       (* the part of the boundary an exterior facet point is on *)
Variables (Vv : velocity_field -> Prop) (VDG : sfield -> Prop).     (* the vertical part of HDiv (l.43, 140) and the space DG *)
Notation DX := (dx G).
(** ds_b, ds_t *)
(** ds_b, ds_t: l.150-155. *)
Definition ds_part (s : side) (f : nat -> R) : R := ds_ G (fun b => if side_eqb (side_of b) s then f b else 0).
(** DirichletBC(W.sub(0), zero(), bstring): on a space of vertical fields, no normal flow through that side *)
(** The boundary condition of l.175-180. *)
Definition no_flow (s : side) (w : velocity_field) : Prop := forall b, (b < nbp G)%nat -> side_of b = s -> u_nb w b = 0.
(** div(th*w) at a point *)
(** Auxiliary, nothing in the code by itself. *)
Definition div_prod (th : sfield) (w : velocity_field) (k : nat) : R := sv th k * v_div d (u_at w k) + vdot d (v_val (u_at w k)) (sg th k).
(** Auxiliary, nothing in the code by itself. *)
Definition w_dot (v w : velocity_field) (k : nat) : R := vdot d (v_val (u_at v k)) (v_val (u_at w k)).

(** ** compressible_hydrostatic_balance, l.97-220 *)
(** l.150-155 *)
Definition bmeasure (top : bool) : side := if top then Top else Bottom.
(** l.150-155. *)
Definition bstring (top : bool) : side := if top then Bottom else Top.
(** l.157-161 *)
Definition moist_theta (theta0 : sfield) (mr_t : option sfield) : sfield :=
  match mr_t with None => theta0 | Some m => quotient1 theta0 m end.
(** l.163-166 *)
Definition exner_lhs (P : cparams) (th : sfield) (v : velocity_field) (exner : sfield) (dv : velocity_field) (dexner : sfield) : R :=
  DX (fun k => cp P * w_dot v dv k - cp P * div_prod th dv k * sv exner k) + DX (fun k => sv dexner k * div_prod th v k).
(** l.168-173; exb: the values of exner_boundary *)
Definition exner_rhs (P : cparams) (g : R) (top : bool) (th : sfield) (exb : nat -> R) (dv : velocity_field) : R :=
  - ds_part (bmeasure top) (fun b => cp P * u_nb dv b * sb th b * exb b) - g * DX (fun k => vdot d (v_val (u_at dv k)) (kvec k)).
(** l.175-196 *)
Definition exner_solution (P : cparams) (g : R) (top : bool) (theta0 : sfield) (mr_t : option sfield) (exb : nat -> R)
    (v : velocity_field) (exner : sfield) : Prop :=
  Vv v /\ VDG exner /\ no_flow (bstring top) v /\
  forall dv dexner, Vv dv -> VDG dexner -> no_flow (bstring top) dv ->
    exner_lhs P (moist_theta theta0 mr_t) v exner dv dexner = exner_rhs P g top (moist_theta theta0 mr_t) exb dv.
(** l.206-212: the residual with exner = exner_pressure(rho, theta0) *)
Definition exner_of_fields (P : cparams) (rho theta0 : sfield) : sfield :=
  exner_field P {| f_u := {| u_at := fun _ => {| v_val := fun _ => 0; v_grad := fun _ _ => 0 |}; u_np := fun _ => 0; u_nm := fun _ => 0; u_nb := fun _ => 0 |};
                   f_D := rho; f_b := theta0; f_q := constant 0 |}.
(** l.206-212. *)
Definition rho_residual (P : cparams) (g : R) (top : bool) (theta0 : sfield) (mr_t : option sfield) (exb : nat -> R)
    (v : velocity_field) (rho : sfield) (dv : velocity_field) (dexner : sfield) : R :=
  let th := moist_theta theta0 mr_t in let exner := exner_of_fields P rho theta0 in
  DX (fun k => cp P * w_dot v dv k - cp P * div_prod th dv k * sv exner k) + DX (fun k => sv dexner k * div_prod theta0 v k)
  + ds_part (bmeasure top) (fun b => cp P * u_nb dv b * sb th b * exb b) + g * DX (fun k => vdot d (v_val (u_at dv k)) (kvec k)).
(** l.213-218 *)
Definition rho_solution P g top theta0 mr_t exb (v : velocity_field) (rho : sfield) : Prop :=
  Vv v /\ VDG rho /\ no_flow (bstring top) v /\
  forall dv dexner, Vv dv -> VDG dexner -> no_flow (bstring top) dv -> rho_residual P g top theta0 mr_t exb v rho dv dexner = 0.

(** ** boussinesq_hydrostatic_balance, l.21-94 *)
(** l.44-58: F, the projection of b0 k *)
Definition buoyancy_flux (top : bool) (b0 : sfield) (F : velocity_field) : Prop :=
  Vv F /\ no_flow (if top then Top else Bottom) F /\
  forall w, Vv w -> no_flow (if top then Top else Bottom) w ->
    DX (fun k => w_dot w F k) = DX (fun k => vdot d (kvec k) (v_val (u_at w k)) * sv b0 k).
(** l.60-94 *)
Definition bouss_solution (top : bool) (F v : velocity_field) (p : sfield) : Prop :=
  Vv v /\ VDG p /\ no_flow (if top then Top else Bottom) v /\
  forall w phi, Vv w -> VDG phi -> no_flow (if top then Top else Bottom) w ->
    DX (fun k => w_dot w v k + v_div d (u_at w k) * sv p k + v_div d (u_at v k) * sv phi k) = DX (fun k => sv phi k * v_div d (u_at F k)).
End Balance.

(** ** A column of lowest-order elements: vertical velocities are continuous and piecewise linear, pressures piecewise
    constant (build_compatible_spaces with degree 0), with N layers between the levels z 0 < z 1 < ... < z N.
    The quadrature rule is Simpson's, which is exact for cubics. *)
Section Column.
Variables (N : nat) (z : nat -> R).
(** Auxiliary, nothing in the code by itself. *)
Definition thickness (c : nat) : R := z (S c) - z c.
(** Auxiliary, nothing in the code by itself. *)
Definition simpson (j : nat) : R := match j with 1%nat => 4/6 | _ => 1/6 end.
(** Auxiliary, nothing in the code by itself. *)
Definition column_geometry : geometry :=
  {| ncp := 3 * N; cw := fun k => thickness (k / 3) * simpson (k mod 3); nfp := N - 1; fw := fun _ => 1; nbp := 2; bw := fun _ => 1 |}.
(** Auxiliary, nothing in the code by itself. *)
Definition column_side (b : nat) : side := match b with 0%nat => Bottom | _ => Top end.
(** Auxiliary, nothing in the code by itself. *)
Definition upward (_ _ : nat) : R := 1.
(** the piecewise linear function with the values a at the levels *)
(** Auxiliary, nothing in the code by itself. *)
Definition p1_val (a : nat -> R) (k : nat) : R :=
  match (k mod 3)%nat with 0%nat => a (k / 3)%nat | 1%nat => (a (k / 3)%nat + a (S (k / 3))) / 2 | _ => a (S (k / 3)) end.
(** Auxiliary, nothing in the code by itself. *)
Definition p1_slope (a : nat -> R) (k : nat) : R := (a (S (k / 3)) - a (k / 3)%nat) / thickness (k / 3).
(** Auxiliary, nothing in the code by itself. *)
Definition p1 (a : nat -> R) : sfield :=
  {| sv := p1_val a; sg := fun k _ => p1_slope a k; sp := fun f => a (S f); sm := fun f => a (S f); sb := fun b => match b with 0%nat => a 0%nat | _ => a N end |}.
(** facet f is level f+1; '+' is the layer below; the outward normals are -1 at the bottom and 1 at the top *)
(** Auxiliary, nothing in the code by itself. *)
Definition vertical_velocity (a : nat -> R) : velocity_field :=
  {| u_at := fun k => {| v_val := fun _ => p1_val a k; v_grad := fun _ _ => p1_slope a k |};
     u_np := fun f => a (S f); u_nm := fun f => - a (S f); u_nb := fun b => match b with 0%nat => - a 0%nat | _ => a N end |}.
(** Auxiliary, nothing in the code by itself. *)
Definition dg0_column (x : nat -> R) : sfield :=
  {| sv := fun k => x (k / 3)%nat; sg := fun _ _ => 0; sp := fun f => x f; sm := fun f => x (S f); sb := fun b => match b with 0%nat => x 0%nat | _ => x (N - 1)%nat end |}.
(** l.220: without solve_for_rho the density is interpolated at the middle of each layer; theta0 = p1 th *)
Definition rho_interpolated (P : cparams) (th exner : nat -> R) (c : nat) : R := rho_of P ((th c + th (S c)) / 2) (exner c).
(** Auxiliary, nothing in the code by itself. *)
Definition column_Vv (w : velocity_field) : Prop := exists a, w = vertical_velocity a.
(** Auxiliary, nothing in the code by itself. *)
Definition column_VDG (s : sfield) : Prop := exists x, s = dg0_column x.
End Column.

(** ** The iterations of saturated_ and unsaturated_hydrostatic_balance, l.223-474.
    A field is given by its values at nodes.  [solve theta mr] is the density found by compressible_hydrostatic_balance,
    [recover] the recovery of the density into the space of theta, [err] the errornorm. *)
Definition nodal := nat -> R.
(** The functions of l.268-302 and l.398-434. *)
Record moist_state := { m_theta : nodal; m_rho : nodal; m_rv : nodal; m_rho_av : nodal; m_test : nodal (* theta_e_test *) }.
(** Auxiliary, nothing in the code by itself. *)
Definition set_theta x s := {| m_theta := x; m_rho := m_rho s; m_rv := m_rv s; m_rho_av := m_rho_av s; m_test := m_test s |}.
(** Auxiliary, nothing in the code by itself. *)
Definition set_rho x s := {| m_theta := m_theta s; m_rho := x; m_rv := m_rv s; m_rho_av := m_rho_av s; m_test := m_test s |}.
(** Auxiliary, nothing in the code by itself. *)
Definition set_rv x s := {| m_theta := m_theta s; m_rho := m_rho s; m_rv := x; m_rho_av := m_rho_av s; m_test := m_test s |}.
(** Auxiliary, nothing in the code by itself. *)
Definition set_av x s := {| m_theta := m_theta s; m_rho := m_rho s; m_rv := m_rv s; m_rho_av := x; m_test := m_test s |}.
(** Auxiliary, nothing in the code by itself. *)
Definition set_test x s := {| m_theta := m_theta s; m_rho := m_rho s; m_rv := m_rv s; m_rho_av := m_rho_av s; m_test := x |}.
(** The relaxations of l.304-347, 436-474. *)
Definition damp (delta : R) (old new : nodal) : nodal := fun k => old k * (1 - delta) + delta * new k.
(** a Python for loop over range(n) with break: the body says whether it broke *)
(** Auxiliary, nothing in the code by itself. *)
Fixpoint for_break {S} (n i : nat) (body : nat -> S -> bool * S) (s : S) : bool * S :=
  match n with O => (false, s) | Datatypes.S n => let (b, s) := body i s in if b then (true, s) else for_break n (Datatypes.S i) body s end.
(** the same with a body that may raise *)
(** Auxiliary, nothing in the code by itself. *)
Fixpoint for_break_res {S} (n i : nat) (body : nat -> S -> res (bool * S)) (s : S) : res (bool * S) :=
  match n with
  | O => Ok (false, s)
  | Datatypes.S n => match body i s with Err e => Err e | Ok (true, s) => Ok (true, s) | Ok (false, s) => for_break_res n (Datatypes.S i) body s end
  end.

Section Moist.
Variables (P : cparams) (solve : nodal -> nodal -> nodal) (recover : nodal -> nodal) (err : nodal -> nodal -> R).
(** the expressions of l.298-302 and l.423-432, at a node *)
Definition exner_at (s : moist_state) (k : nat) : R := exner_pressure P (m_rho_av s k) (m_theta s k).
(** l.299. *)
Definition p_at (s : moist_state) (k : nat) : R := p_of P (exner_at s k).
(** l.300. *)
Definition T_at (s : moist_state) (k : nat) : R := T_of P (m_theta s k) (exner_at s k) (Some (m_rv s k)).
(** l.301. *)
Definition theta_e_expr (mr_t : nodal) (s : moist_state) : nodal := fun k => theta_e P (T_at s k) (p_at s k) (m_rv s k) (mr_t k).
(** l.302. *)
Definition r_sat_expr (s : moist_state) : nodal := fun k => r_sat P (T_at s k) (p_at s k).
(** l.430-434. *)
Definition r_v_expr (H : nodal) (s : moist_state) : nodal := fun k => r_v_of P (H k) (T_at s k) (p_at s k).
(** l.430-434. *)
Definition RH_expr (s : moist_state) : nodal := fun k => RH P (m_rv s k) (T_at s k) (p_at s k).
(** Auxiliary, nothing in the code by itself. *)
Definition below (x tol : R) : bool := if Rlt_dec x tol then true else false.

(** saturated_hydrostatic_balance: the inner loop, l.328-335 *)
Definition sat_inner (max_inner : nat) (theta_e_target mr_t : nodal) (s : moist_state) : moist_state :=
  snd (for_break max_inner 0 (fun _ s =>
    let s := set_rv (damp (8/10) (m_rv s) (r_sat_expr s)) s in
    let s := set_test (theta_e_expr mr_t s) s in
    (below (err (m_test s) theta_e_target) (/ 10^6), s)) s).
(** the loop over theta, l.321-335 *)
Definition sat_theta (max_theta max_inner : nat) (theta_e_target mr_t : nodal) (s : moist_state) : moist_state :=
  snd (for_break max_theta 0 (fun _ s =>
    let theta_h := fun k => theta_e_target k / theta_e_expr mr_t s k * m_theta s k in
    let s := set_theta (damp (8/10) (m_theta s) theta_h) s in
    if below (err (m_test s) theta_e_target) (/ 10^6) then (true, s)
    else (false, sat_inner max_inner theta_e_target mr_t s)) s).
(** the body of the outer loop, l.305-335: whether it breaks, and the new state *)
Definition sat_step (max_theta max_inner : nat) (theta_e_target mr_t : nodal) (s : moist_state) : bool * moist_state :=
  let rho_h := solve (m_theta s) mr_t in
  let s := set_rho (damp (8/10) (m_rho s) rho_h) s in
  let s := set_test (theta_e_expr mr_t s) s in
  if below (err (m_test s) theta_e_target) (/ 10^8) then (true, s)
  else
    let s := set_av (recover (m_rho s)) s in
    (false, sat_theta max_theta max_inner theta_e_target mr_t s).
(** the outer loop, l.304-338 and l.435-465, with the test of l.337-338 and l.464-465 at the end of the body *)
Definition outer_loop (max_outer : nat) (step : moist_state -> bool * moist_state) (s : moist_state) : res (bool * moist_state) :=
  for_break_res max_outer 0 (fun i s =>
    let (stop, s) := step s in
    if stop then Ok (true, s) else if Nat.eqb i max_outer then Err RuntimeError else Ok (false, s)) s.
(** l.223-347 (delta = 0.8, l.295).  rho_init: the density in state_fields when called.  The result: whether the outer loop was left by break,
    and the final state.  l.341: the module thermodynamics has no function exner. *)
Definition saturated (max_outer max_theta max_inner : nat) (want_exner : bool) (theta_e_target mr_t rho_init : nodal) : res (bool * moist_state) :=
  let s := {| m_theta := theta_e_target; m_rho := rho_init; m_rv := mr_t; m_rho_av := fun _ => 0; m_test := fun _ => 0 |} in
  match outer_loop max_outer (sat_step max_theta max_inner theta_e_target mr_t) s with
  | Err e => Err e
  | Ok (b, s) => if want_exner then Err AttributeError else Ok (b, set_rho (solve (m_theta s) mr_t) s)
  end.

(** unsaturated_hydrostatic_balance: the inner loop, l.452-462; delta = 1.0 (l.420).  m_test is the field RH. *)
Definition unsat_inner (max_inner : nat) (theta_d H : nodal) (s : moist_state) : moist_state :=
  snd (for_break max_inner 0 (fun _ s =>
    let s := set_rv (damp 1 (m_rv s) (r_v_expr H s)) s in
    let s := set_theta (fun k => theta_d k * (1 + m_rv s k / (R_d P / R_v P))) s in
    let s := set_test (RH_expr s) s in
    (below (err (m_test s) H) (/ 10^10), s)) s).
(** the body of the outer loop, l.436-462 *)
Definition unsat_step (max_inner : nat) (theta_d H : nodal) (s : moist_state) : bool * moist_state :=
  let rho_h := solve (m_theta s) (m_rv s) in
  let s := set_rho (damp 1 (m_rho s) rho_h) s in
  let s := set_av (recover (m_rho s)) s in
  let s := set_test (RH_expr s) s in
  if below (err (m_test s) H) (/ 10^10) then (true, s) else (false, unsat_inner max_inner theta_d H s).
(** l.350-474.  The result: whether the outer loop was left by break, the final state, and the value of exner0
    (interpolated before the last solve for rho; theta_at: theta at the nodes of exner0's space) *)
Definition unsaturated (max_outer max_inner : nat) (theta_d H rho_init : nodal) (theta_at : nodal -> nodal) : res (bool * moist_state * nodal) :=
  let s := {| m_theta := fun k => theta_d k * (101/100); m_rho := rho_init; m_rv := fun _ => 1/100; m_rho_av := fun _ => 0; m_test := fun _ => 0 |} in
  match outer_loop max_outer (unsat_step max_inner theta_d H) s with
  | Err e => Err e
  | Ok (b, s) =>
      let exner0 := fun k => exner_pressure P (m_rho s k) (theta_at (m_theta s) k) in
      Ok (b, set_rho (solve (m_theta s) (m_rv s)) s, exner0)
  end.
End Moist.
