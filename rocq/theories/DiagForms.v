(** Model of the diagnostics that are computed from integrals: CourantNumber, Gradient, TracerDensity (gusto/diagnostics/diagnostics.py),
    the vorticities (gusto/diagnostics/shallow_water_diagnostics.py), HydrostaticImbalance and Precipitation
    (gusto/diagnostics/compressible_euler_diagnostics.py), and the global diagnostics rms, l2 and total.
    Integrals are the sums over quadrature points of Transport.v.  A LinearVariationalSolver is modelled by what it finds: a function of
    the space with which the equation holds for every test function of the space (its accuracy is not modelled).
    Functions spaces are predicates on functions. *)
From Verif Require Import Base Vec Transport CommonForms Equations Compressible Thermo Vorticity.
From Coq Require Import String.
Open Scope R_scope.

(** ** CourantNumber, diagnostics.py l.341-457 *)
(** vector-valued velocity at the facets, and facet normals *)
(** Auxiliary, nothing in the code by itself. *)
Record facet_velocity := { fu_p : nat -> nat -> R; fu_m : nat -> nat -> R; fu_b : nat -> nat -> R }.
(** Auxiliary, nothing in the code by itself. *)
Record normals := { n_p : nat -> nat -> R; n_m : nat -> nat -> R; n_b : nat -> nat -> R }.
(** diagnostics.py l.372-375. *)
Inductive component := Whole | Horizontal | Vertical.
(** l.372-399: the name; [named] is the name argument, [field] the name of the velocity field or None for an expression *)
Definition courant_name (field : option string) (named : option string) (c : component) : res string :=
  let suffix := match c with Whole => ""%string | Horizontal => "_horizontal"%string | Vertical => "_vertical"%string end in
  match field with
  | Some v => Ok ((if (v =? "u")%string then "CourantNumber" else "CourantNumber_" ++ match named with None => v | Some n => n end) ++ suffix)%string
  | None => match named with None => Err ValueError | Some n => Ok ("CourantNumber_" ++ n)%string end
  end.
Section Courant.
Variables (G : geometry) (d : nat) (D : dg0_map) (N : normals) (k : nat -> R).
(** l.424-429: u, dot(u, k)*k or u - dot(u, k)*k *)
Definition of_component (c : component) (u : nat -> R) (i : nat) : R :=
  match c with Whole => u i | Vertical => vdot d u k * k i | Horizontal => u i - vdot d u k * k i end.
(** l.443-446: un = 0.5*(inner(-u, n) + abs(inner(-u, n))); for a scalar velocity the same with d = 1 *)
Definition inward (u n : nat -> R) : R := 1/2 * (vdot d (fun i => - u i) n + Rabs (vdot d (fun i => - u i) n)).
(** 2*avg(un*test)*dS + un*test*ds *)
(** diagnostics.py l.447. *)
Definition cell_flux_form (c : component) (u : facet_velocity) (test : sfield) : R :=
  dS_ G (fun f => 2 * (1/2 * (inward (of_component c (fu_p u f)) (n_p N f) * sp test f + inward (of_component c (fu_m u f)) (n_m N f) * sm test f)))
  + ds_ G (fun b => inward (of_component c (fu_b u b)) (n_b N b) * sb test b).
(** l.449: cell_flux * dt / cell_volume, in cell e; CellVolume is the integral of one over the cell *)
Definition courant_number (c : component) (u : facet_velocity) (dt : R) (e : nat) : R :=
  cell_flux_form c u (dg0 D (indicator e)) * dt / dx G (sv (dg0 D (indicator e))).
End Courant.

(** ** Gradient with method 'solve', diagnostics.py l.505-516, of a scalar field f.  lateral: the exterior facets that are neither top nor
    bottom.  Test and trial functions are vector valued. *)
Section Gradient.
Variables (G : geometry) (d : nat) (lateral : nat -> bool).
(** diagnostics.py l.510. *)
Definition gradient_lhs (test trial : velocity_field) : R := dx G (fun k => vdot d (v_val (u_at test k)) (v_val (u_at trial k))).
(** diagnostics.py l.511-513. *)
Definition gradient_rhs (extruded : bool) (f : sfield) (test : velocity_field) : R :=
  - dx G (fun k => v_div d (u_at test k) * sv f k)
  + (if extruded then ds_ G (fun b => if lateral b then 0 else u_nb test b * sb f b) else 0).
(** diagnostics.py l.505-516. *)
Definition gradient_solves (V : velocity_field -> Prop) (extruded : bool) (f : sfield) (g : velocity_field) : Prop :=
  V g /\ forall test, V test -> gradient_lhs test g = gradient_rhs extruded f test.
End Gradient.

(** ** Vorticity with method 'solve', shallow_water_diagnostics.py l.205-228; the velocity is planar (Transport.v) and perp(a) = (-a_1, a_0) *)
Inductive vorticity_type := Relative | Absolute | Potential.
Section VorticityDiagnostic.
Variable G : geometry.
(** shallow_water_diagnostics.py l.205-211. *)
Definition vorticity_lhs (ty : vorticity_type) (Dp q gamma : sfield) : R :=
  match ty with Potential => dx G (fun k => sv q k * sv gamma k * sv Dp k) | _ => dx G (fun k => sv q k * sv gamma k) end.
(** shallow_water_diagnostics.py l.213-216. *)
Definition vorticity_rhs (ty : vorticity_type) (u : planar) (f gamma : sfield) : R :=
  dx G (fun k => - dot2 (perp2d (sg gamma k)) (pv u k)) + match ty with Relative => 0 | _ => dx G (fun k => sv gamma k * sv f k) end.
(** shallow_water_diagnostics.py l.202-220. *)
Definition vorticity_solves (V : sfield -> Prop) (ty : vorticity_type) (u : planar) (f Dp q : sfield) : Prop :=
  V q /\ forall gamma, V gamma -> vorticity_lhs ty Dp q gamma = vorticity_rhs ty u f gamma.
End VorticityDiagnostic.
(** the other methods, l.188-194: expr, with the curl c of the velocity *)
Definition vorticity_expr (ty : vorticity_type) (c f Dp : R) : R :=
  match ty with Potential => (c + f) / Dp | Absolute => c + f | Relative => c end.
(** ShallowWaterPotentialEnstrophy, l.125-139, from the vorticity of the given type *)
Definition enstrophy_expr (ty : vorticity_type) (z f Dp : R) : R :=
  match ty with Potential => 1/2 * z ^ 2 * Dp | Relative => 1/2 * (z + f) ^ 2 / Dp | Absolute => 1/2 * z ^ 2 / Dp end.

(** ** HydrostaticImbalance, compressible_euler_diagnostics.py l.709-739 *)
Section Imbalance.
Variables (G : geometry) (d : nat) (kvec : nat -> nat -> R) (vertical : nat -> bool) (P : cparams).
(** Auxiliary, nothing in the code by itself. *)
Definition difference (a b : sfield) : sfield := sadd a (sopp b).
(** -cp div(th w) ex dx + cp jump(th w, n) avg(ex) dS_v *)
(** compressible_euler_diagnostics.py l.727-730. *)
Definition weak_pressure (th ex : sfield) (w : velocity_field) : R :=
  cp P * (- dx G (fun k => (sv th k * v_div d (u_at w k) + vdot d (v_val (u_at w k)) (sg th k)) * sv ex k)
          + dS_v G vertical (fun f => jump_ th w f * avg_ ex f)).
(** compressible_euler_diagnostics.py l.727-730. *)
Definition imbalance_rhs (X Xbar : fields) (w : velocity_field) : R :=
  weak_pressure (difference (f_b X) (f_b Xbar)) (exner_field P Xbar) w
  + weak_pressure (f_b Xbar) (difference (exner_field P X) (exner_field P Xbar)) w.
(** compressible_euler_diagnostics.py l.723-736. *)
Definition imbalance_solves (V : velocity_field -> Prop) (X Xbar : fields) (F : velocity_field) : Prop :=
  V F /\ forall w, V w -> dx G (fun k => vdot d (v_val (u_at w k)) (v_val (u_at F k))) = imbalance_rhs X Xbar w.
(** dot(imbalance, k) *)
(** compressible_euler_diagnostics.py l.739. *)
Definition imbalance (F : velocity_field) (k : nat) : R := vdot d (v_val (u_at F k)) (kvec k).
End Imbalance.

(** ** Precipitation, compressible_euler_diagnostics.py l.762-808, in the space of cellwise constants.  bottom: the exterior facets of ds_b *)
Section Precipitation.
Variables (G : geometry) (D : dg0_map) (bottom : nat -> bool).
(** Auxiliary, nothing in the code by itself. *)
Definition ds_bottom (f : nat -> R) : R := ds_ G (fun b => if bottom b then f b else 0).
(** fall: rain * dot(-v, k) * rho at the exterior facets *)
(** compressible_euler_diagnostics.py l.787-796. *)
Definition area_solves (cells : nat) (area : nat -> R) : Prop :=
  forall e, (e < cells)%nat -> dx G (fun k => sv (dg0 D (indicator e)) k * sv (dg0 D area) k) = ds_bottom (fun b => sb (dg0 D (indicator e)) b).
(** compressible_euler_diagnostics.py l.789-800. *)
Definition flux_solves (cells : nat) (dt : R) (area : nat -> R) (fall : nat -> R) (flux : nat -> R) : Prop :=
  forall e, (e < cells)%nat -> dx G (fun k => sv (dg0 D (indicator e)) k * sv (dg0 D flux) k) =
    dt * ds_bottom (fun b => sb (dg0 D (indicator e)) b * (fall b / sb (dg0 D area) b)).
(** compute, l.805-808; setup (l.803) starts from zero *)
Inductive precipitation (cells : nat) (dt : R) : list (nat -> R) -> (nat -> R) -> Prop :=
| precipitation_setup : precipitation cells dt [] (fun _ => 0)
| precipitation_compute : forall falls fall field area flux, precipitation cells dt falls field ->
    area_solves cells area -> flux_solves cells dt area fall flux -> precipitation cells dt (falls ++ [fall])%list (fun e => field e + flux e).
End Precipitation.

(** ** TracerDensity with method 'solve', diagnostics.py l.1008-1021: projection of the product to cellwise constants *)
Definition tracer_density_solves (G : geometry) (D : dg0_map) (cells : nat) (m rho : sfield) (x : nat -> R) : Prop :=
  forall e, (e < cells)%nat -> dx G (fun k => sv (dg0 D x) k * sv (dg0 D (indicator e)) k) = dx G (fun k => (sv m k * sv rho k) * sv (dg0 D (indicator e)) k).

(** ** Diagnostics.rms, l2 and total, diagnostics.py l.81-117 *)
Definition global_l2 (G : geometry) (f : nat -> R) : R := sqrt (dx G (fun k => f k * f k)).
(** diagnostics.py l.81-92. *)
Definition global_rms (G : geometry) (f : nat -> R) : R := sqrt (dx G (fun k => f k * f k) / dx G (fun _ => 1)).
(** diagnostics.py l.105-117. *)
Definition global_total (G : geometry) (f : nat -> R) : R := dx G f.
