(** Model of SurfaceFluxes, WindDrag, StaticAdjustment and SuppressVerticalWind
    (gusto/physics/boundary_and_turbulence.py l.23-538) and of the Held-Suarez forcing
    (gusto/physics/held_suarez_forcing.py).  Pointwise; the projections of the wind
    sources and quadrature are not modelled. *)
From Verif Require Import Base Vec RK Thermo Microphysics.
From Coq Require Import Ratan.
Open Scope R_scope.

(** BoundaryLayerParameters (core/equation_configuration.py l.142-154) *)
Record blparams := { C_D0 : R; C_D1 : R; C_D2 : R; C_H : R; C_E : R; z_a : R }.
(** The defaults of BoundaryLayerParameters, core/equation_configuration.py l.142-154. *)
Definition default_bl := {| C_D0 := 0.0007; C_D1 := 0.000065; C_D2 := 0.002; C_H := 0.0011; C_E := 0.0011; z_a := 75 |}.
(** l.117, 287: conditional(z < z_a, 1, 0) *)
Definition surface (B : blparams) (z : R) : R := cond z (z_a B) 1 0.

(** ** Wind *)
(** Auxiliary, nothing in the code by itself. *)
Inductive axis := AX | AY | AZ.
(** Auxiliary, nothing in the code by itself. *)
Definition dot (a b : vec axis) : R := a AX * b AX + a AY * b AY + a AZ * b AZ.
(** u - k*dot(u, k), l.119, 279 *)
Definition horizontal (k u : vec axis) : vec axis := fun i => u i - k i * dot u k.
(** u_hori_mag, l.120, 280. *)
Definition speed (k u : vec axis) : R := sqrt (dot (horizontal k u) (horizontal k u)).
Section Drag.
  Variables (B : blparams) (k : vec axis) (z : R).
  (** l.293 *)
  Definition C_D (u : vec axis) : R := cond (speed k u) 20 (C_D0 B + C_D1 B * speed k u) (C_D2 B).
  (** implicit formulation: l.303-305 *)
  Definition drag_source (dt : R) (u : vec axis) : vec axis := fun i =>
    surface B z * (horizontal k u i / (1 + C_D u * speed k u * dt / z_a B) - horizontal k u i) / dt.
  (** l.314-317: residual -= inner(test, source - k*dot(source, k)) *)
  Definition drag_implicit (dt : R) (u : vec axis) : vec axis := fun i => - horizontal k (drag_source dt u) i.
  (** general formulation: l.322-327 *)
  Definition drag_general (u : vec axis) : vec axis := fun i => - (- surface B z * C_D u * speed k u * horizontal k u i / z_a B).
End Drag.

(** ** SurfaceFluxes at a point: theta and vapour, with |u_h|, density and exner given *)
(** The two fields at a point; their prognostic variables are taken from the equation at l.76-92. *)
Inductive tm := Th | Mv.
Section Flux.
  Variables (P : cparams) (B : blparams) (z umag rho T_surface : R) (moist : bool).
  (** m_v, l.85-109: the vapour if the fluxes include it. *)
  Definition rv (x : vec tm) : option R := if moist then Some (x Mv) else None.
  (** exner, l.103-106. *)
  Definition fl_exner (x : vec tm) := exner_pressure P rho (x Th).
  (** T, l.109. *)
  Definition fl_T (x : vec tm) := T_of P (x Th) (fl_exner x) (rv x).
  (** p, l.110. *)
  Definition fl_p (x : vec tm) := p_of P (fl_exner x).
  (** l.131-132 *)
  Definition T_np1 (dt : R) (x : vec tm) : R := (fl_T x + C_H B * umag * T_surface * dt / z_a B) / (1 + C_H B * umag * dt / z_a B).
  (** l.138-141 *)
  Definition mv_sat (x : vec tm) : R := r_sat P (fl_T x) (fl_p x).
  (** mv_np1_expr, l.139-140. *)
  Definition mv_np1 (dt : R) (x : vec tm) : R := (x Mv + C_E B * umag * mv_sat x * dt / z_a B) / (1 + C_E B * umag * dt / z_a B).
  (** l.155-160 *)
  Definition theta_np1 (dt : R) (x : vec tm) : R :=
    if moist then theta_of P (T_np1 dt x) (fl_p x) * (1 + mv_np1 dt x / (R_d P / R_v P)) else theta_of P (T_np1 dt x) (fl_p x).
  (** l.141, 149-151, 164-173: residual -= source *)
  Definition flux_implicit (dt : R) (x : vec tm) : vec tm := fun v =>
    match v with
    | Mv => if moist then - (surface B z * (mv_np1 dt x - x Mv) / dt) else 0
    | Th => - (surface B z * (theta_np1 dt x - x Th) / dt)
    end.
  (** general formulation, l.178-200 *)
  Definition dT_dt (x : vec tm) : R := surface B z * C_H B * umag * (T_surface - fl_T x) / z_a B.
  (** dmv_dt, l.183. *)
  Definition dmv_dt (x : vec tm) : R := if moist then surface B z * C_E B * umag * (mv_sat x - x Mv) / z_a B else 0.
  (** dtheta_dt, l.189-200. *)
  Definition dtheta_dt (x : vec tm) : R :=
    let eps := R_d P / R_v P in
    if moist then dT_dt x * ((1 + x Mv / eps) / fl_exner x - kappa P * x Th / (rho * fl_T x))
                  + dmv_dt x * (fl_T x / (eps * fl_exner x) - kappa P * x Th / (eps + x Mv))
    else dT_dt x * (1 / fl_exner x - kappa P * x Th / (rho * fl_T x)).
  (** The residual terms of l.184-206: minus the tendencies. *)
  Definition flux_general (x : vec tm) : vec tm := fun v => match v with Th => - dtheta_dt x | Mv => - dmv_dt x end.
End Flux.

(** ** StaticAdjustment: l.391-455.  numpy's sort of one column *)
Fixpoint insert (a : R) (l : list R) : list R :=
  match l with [] => [a] | b :: r => if Rle_dec a b then a :: l else b :: insert a r end.
(** numpy sort of a column, l.449-450. *)
Fixpoint np_sort (l : list R) : list R := match l with [] => [] | a :: r => insert a (np_sort r) end.
(** one column: values of theta and of the factor (1 + mv*Rv/Rd) (1 if theta_vd is sorted);
    the source is (sorted - theta)/dt, l.425-427, so an Euler step of size dt gives: *)
Definition static_adjustment (dt : R) (factor theta : list R) : list R :=
  let to_sort := map (fun '(th, f) => th / f) (combine theta factor) in
  let sorted := map (fun '(s, f) => s * f) (combine (np_sort to_sort) factor) in
  map (fun '(th, s) => th - dt * - ((s - th) / dt)) (combine theta sorted).

(** ** SuppressVerticalWind: l.490-538.  Python and UFL divide by self.dt, which is 0 until
    the first evaluation before the end of the spin-up: the result is not a number (None). *)
Record suppress := { sv_w : R; sv_dt : R; sv_strength : R; sv_done : bool }.
(** l.493-495. *)
Definition suppress_init : suppress := {| sv_w := 0; sv_dt := 0; sv_strength := 1; sv_done := false |}.
(** evaluate, l.517-538. *)
Definition suppress_evaluate (spin_up : R) (s : suppress) (t w dt : R) : suppress :=
  if Rlt_dec t spin_up then {| sv_w := w; sv_dt := dt; sv_strength := sv_strength s; sv_done := sv_done s |}
  else if sv_done s then s else {| sv_w := sv_w s; sv_dt := sv_dt s; sv_strength := 0; sv_done := true |}.
(** one step of the physics scheme: evaluate, then an Euler step of size dt with the source
    -strength * w / self.dt *)
(** The source of l.512 in the physics scheme. *)
Definition suppress_step (spin_up : R) (s : suppress) (t w dt : R) : suppress * option R :=
  let s := suppress_evaluate spin_up s t w dt in
  (s, if Req_EM_T (sv_dt s) 0 then None else Some (w + dt * (- sv_strength s * sv_w s / sv_dt s))).

(** ** Held-Suarez: held_suarez_forcing.py *)
Record hsparams := { T0surf : R; T0horiz : R; T0vert : R; T0stra : R; sigmab : R; tau_d : R; tau_u : R }.
(** The defaults of HeldSuarezParameters, core/equation_configuration.py l.157-167. *)
Definition default_hs := {| T0surf := 315; T0horiz := 60; T0vert := 10; T0stra := 200; sigmab := 0.7; tau_d := 40 * 24 * 60 * 60; tau_u := 4 * 24 * 60 * 60 |}.
Section HeldSuarez.
  Variables (H : hsparams) (kap lat : R).
  (** l.71-72 *)
  Definition theta_eq (exner : R) : R :=
    let c := T0surf H - T0horiz H * (sin lat * sin lat) - (T0vert H * ln exner * (cos lat * cos lat)) / kap in
    if Rle_dec c (T0stra H / exner) then T0stra H / exner else c.
  (** l.75, 158 *)
  Definition tau_cond (sigma : R) : R := (Rpower sigma (1 / kap) - sigmab H) / (1 - sigmab H).
  (** conditional(0 >= tau_cond, 0, tau_cond): held_suarez_forcing.py l.76, 159. *)
  Definition pos_tau_cond (sigma : R) : R := if Rle_dec (tau_cond sigma) 0 then 0 else tau_cond sigma.
  (** l.76 *)
  Definition newton_freq (sigma : R) : R :=
    1 / tau_d H + (1 / tau_u H - 1 / tau_d H) * pos_tau_cond sigma * (cos lat * cos lat * cos lat * cos lat).
  (** l.77-87: residual += newton_freq (theta - theta_eq) *)
  Definition relaxation (sigma exner theta : R) : R := newton_freq sigma * (theta - theta_eq exner).
  (** RayleighFriction, l.156-169: residual += u_hori * wind_timescale *)
  Definition wind_timescale (sigma : R) : R := pos_tau_cond sigma / (24 * 60 * 60).
  (** forcing_expr, held_suarez_forcing.py l.160. *)
  Definition friction (sigma : R) (k u : vec axis) : vec axis := fun i => horizontal k u i * wind_timescale sigma.
End HeldSuarez.
