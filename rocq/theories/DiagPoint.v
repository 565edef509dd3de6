(** Model of the diagnostics that are evaluated point by point: the thermodynamic diagnostics of the compressible Euler equations
    (gusto/diagnostics/compressible_euler_diagnostics.py), vector components and energies (gusto/diagnostics/diagnostics.py), and the partition
    of total moisture (gusto/diagnostics/shallow_water_diagnostics.py).
    Simplification: every expression is evaluated exactly at the degrees of freedom (method 'interpolate'), with the values that the fields
    have there; for the thermodynamic diagnostics rho stands for the recovered density rho_averaged. *)
From Coq Require Import List String Reals.
Import ListNotations.
From Verif Require Import Base Vec Thermo Compressible Diagnostics.
Open Scope R_scope.

(** ** The state of the air at a point, compressible_euler_diagnostics.py l.305-316 and l.461-469, 543-553 *)
Section Thermodynamic.
Variable P : cparams.
(** Auxiliary, nothing in the code by itself. *)
Record air := { a_rho : R; a_theta : R; a_rv : R }.
(** l.314, 468, 544. *)
Definition exner_at (s : air) : R := exner_pressure P (a_rho s) (a_theta s).
(** l.316, 469, 545. *)
Definition pressure_at (s : air) : R := p_of P (exner_at s).
(** l.315, 470, 546. *)
Definition temperature_at (s : air) : R := T_of P (a_theta s) (exner_at s) (Some (a_rv s)).
(** Theta_d, l.614-615 *)
Definition theta_d_at (s : air) : R := a_theta s / (1 + a_rv s * R_v P / R_d P).
(** DewpointTemperature.implicit_expr and set_first_guess, l.448-496 *)
Definition dewpoint_expr (s : air) (x : R) : R := x - temperature_at s * (r_sat P x (pressure_at s) - a_rv s).
(** DewpointTemperature, l.421-496, with the iteration of diagnostics.py l.331-337. *)
Definition dewpoint {I} (gamma : R) (num_iterations : nat) (s : I -> air) : vec I :=
  iter_compute gamma (fun x i => dewpoint_expr (s i) (x i)) num_iterations (fun i => temperature_at (s i)).
(** WetBulbTemperature.implicit_expr and set_first_guess, l.527-582; without water vapour r_v is zero *)
Definition wb_a : R := R_v P + c_pl P - c_pv P.
(** l.556. *)
Definition wb_b : R := - L_v0 P - (c_pl P - c_pv P) * T_0 P.
(** implicit_expr, l.528-561. *)
Definition wet_bulb_expr (s : air) (x : R) : R :=
  - wb_b / wb_a + (wb_a * temperature_at s + wb_b) / wb_a
    * Rpower ((c_vv P * r_sat P x (pressure_at s) + cv P) / (c_vv P * a_rv s + cv P)) (wb_a / c_vv P).
(** WetBulbTemperature, l.499-582. *)
Definition wet_bulb {I} (gamma : R) (num_iterations : nat) (s : I -> air) : vec I :=
  iter_compute gamma (fun x i => wet_bulb_expr (s i) (x i)) num_iterations (fun i => temperature_at (s i)).
(** the default arguments, l.430-431 and 507-508 *)
Definition dewpoint_default {I} (s : I -> air) : vec I := dewpoint 1 3 s.
(** l.506-507. *)
Definition wet_bulb_default {I} (s : I -> air) : vec I := wet_bulb (1/2) 3 s.
End Thermodynamic.

(** ** The sums of the water species, l.294-310: r_v, r_l and r_t *)
Definition water_sums (ts : list (ctracer * R)) : res (R * R * R) :=
  fold_left (fun (acc : res (R * R * R)) (tv : ctracer * R) => do s <- acc; let '(rv, rl, rt) := s in let (t, v) := tv in
    if tr_H2O t then
      if negb (tr_mixing t) then Err NotImplementedError
      else match tr_phase t with Gas => Ok (rv + v, rl, rt + v) | Liquid => Ok (rv, rl + v, rt + v) | _ => Ok (rv, rl, rt + v) end
    else Ok (rv, rl, rt)) ts (Ok (0, 0, 0)).

(** ** Energies: Energy.kinetic (diagnostics.py l.757-772), PotentialEnergy and ThermodynamicKineticEnergy (l.373, 417), shallow water energies
    (shallow_water_diagnostics.py l.44, 77) *)
Definition kinetic (factor : option R) (u : list R) : R :=
  let uu := fold_right (fun a s => a * a + s) 0 u in match factor with Some f => 1/2 * f * uu | None => 1/2 * uu end.
(** ThermodynamicKineticEnergy, l.417. *)
Definition moist_kinetic (rho r_t : R) (u : list R) : R := 1/2 * rho * (1 + r_t) * fold_right (fun a s => a * a + s) 0 u.
(** PotentialEnergy, l.373. *)
Definition moist_potential (rho r_t g z : R) : R := rho * (1 + r_t) * g * z.
(** shallow_water_diagnostics.py l.77. *)
Definition sw_potential (g D : R) : R := 1/2 * g * D ^ 2.

(** ** PartitionedVapour and PartitionedCloud, shallow_water_diagnostics.py l.372 and 422-423: conditional(q_t < q_sat, q_t, q_sat) *)
Definition partitioned_vapour (q_t q_sat : R) : R := if Rlt_dec q_t q_sat then q_t else q_sat.
(** shallow_water_diagnostics.py l.422-423. *)
Definition partitioned_cloud (q_t q_sat : R) : R := q_t - partitioned_vapour q_t q_sat.

(** ** Cartesian components, diagnostics.py l.587-648: the unit vectors have as many entries as the topological dimension of the mesh, and
    dot with the field, which has the geometric dimension, fails if these differ (ValueError of UFL).
    domain_type: domain.metadata['domain_type'] *)
(** core/domain.py l.214-229: construct_domain_metadata *)
Definition domain_type_of (on_sphere extruded : bool) (geometric topological : nat) : res string :=
  if on_sphere && extruded then Ok "extruded_spherical_shell"%string
  else if on_sphere then Ok "spherical_shell"%string
  else if Nat.eqb geometric 1 && Nat.eqb topological 1 then Ok "interval"%string
  else if Nat.eqb geometric 2 && Nat.eqb topological 2 && extruded then Ok "vertical_slice"%string
  else if Nat.eqb geometric 2 && Nat.eqb topological 2 then Ok "plane"%string
  else if Nat.eqb geometric 3 && Nat.eqb topological 3 && extruded then Ok "extruded_plane"%string
  else Err ValueError.
(** Auxiliary, nothing in the code by itself. *)
Inductive axis := AxisX | AxisY | AxisZ.
(** diagnostics.py l.602-603, 624-625, 646-647. *)
Definition unit_vector (dim : nat) (a : axis) : list R :=
  match a with
  | AxisX => 1 :: repeat 0 (dim - 1)
  | AxisY => 0 :: 1 :: repeat 0 (dim - 2)
  | AxisZ => repeat 0 (dim - 1) ++ [1]
  end.
(** diagnostics.py l.622, 644. *)
Definition refused (domain_type : string) (a : axis) : bool :=
  match a with
  | AxisX => false
  | AxisY => (domain_type =? "interval")%string || (domain_type =? "vertical_slice")%string
  | AxisZ => (domain_type =? "interval")%string || (domain_type =? "plane")%string
  end.
(** Auxiliary, nothing in the code by itself. *)
Fixpoint dot_list (u v : list R) : R := match u, v with a :: u, b :: v => a * b + dot_list u v | _, _ => 0 end.
(** diagnostics.py l.572-647. *)
Definition component_of (domain_type : string) (topological_dimension : nat) (a : axis) (field : list R) : res R :=
  if refused domain_type a then Err AssertionError else
  let e := unit_vector topological_dimension a in
  if Nat.eqb (List.length e) (List.length field) then Ok (dot_list field e) else Err ValueError.
