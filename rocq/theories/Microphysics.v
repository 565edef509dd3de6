(** Model of the moist physics schemes: SaturationAdjustment, Coalescence and
    EvaporationOfRain (gusto/physics/microphysics.py l.27-220, 376-505, 505-680),
    InstantRain and SWSaturationAdjustment (shallow_water_microphysics.py l.19-174,
    177-383), TerminatorToy (chemistry.py) and SourceSink (physics_parametrisation.py).

    Everything is pointwise: the sources are interpolated into the species' common
    function space, so one node is modelled, with its values of all variables.
    [residual_of_*] is what the scheme adds to the equation's residual (mass term + residual
    = 0), so that the tendency the time discretisation sees is its negative.
    conditional/min_value/max_value are Rlt_dec/Rmin/Rmax; x ** a is [pow]. *)
From Verif Require Import Base Vec RK Thermo.
Open Scope R_scope.

(** Auxiliary, nothing in the code by itself. *)
Inductive var := Vapour | Cloud | Rain | Theta | Depth | Buoyancy.
(** Auxiliary, nothing in the code by itself. *)
Definition state := vec var.
(** Auxiliary, nothing in the code by itself. *)
Definition cond {A} (a b : R) (x y : A) : A := if Rlt_dec a b then x else y.   (* conditional(a < b, x, y) *)
(** x ** a, for x >= 0 and a > 0 *)
(** Auxiliary, nothing in the code by itself. *)
Definition pow (x a : R) : R := if Rlt_dec 0 x then Rpower x a else 0.
(** the physics tendency handed to the time discretisation *)
(** physics_parametrisation.py l.36-60; the residuals of microphysics.py l.166-168. *)
Definition tendency (residual : state -> state) : state -> state := fun x v => - residual x v.
(** one step of ForwardEuler with the scheme alone (the explicit Runge-Kutta model) *)
(** time_discretisation/explicit_runge_kutta.py l.457-505. *)
Definition euler_step (dt : R) (residual : state -> state) (x : state) : state :=
  apply_increment tab_ForwardEuler 1 (fun x => x) dt (fun _ => vzero) (tendency residual) 1 (fun _ => vzero) x.

Section SaturationAdjustment.
  Variables (P : cparams) (latent_heat : bool) (dt rho : R).   (* rho: density recovered at the node *)
  (** microphysics.py l.111-135. *)
  Definition sa_exner (x : state) := exner_pressure P rho (x Theta).
  (** microphysics.py l.137-147. *)
  Definition sa_T (x : state) := T_of P (x Theta) (sa_exner x) (Some (x Vapour)).
  (** microphysics.py l.143-147. *)
  Definition sa_sat (x : state) := r_sat P (sa_T x) (p_of P (sa_exner x)).
  (** l.149-155 *)
  Definition sat_adj_unlimited (x : state) : R :=
    let rate := (x Vapour - sa_sat x) / dt in
    if latent_heat then rate / (1 + (Lv P (sa_T x) * Lv P (sa_T x) * sa_sat x) / (cp P * R_v P * (sa_T x * sa_T x))) else rate.
  (** l.158-160 *)
  Definition sat_adj_rate (x : state) : R :=
    let r := sat_adj_unlimited x in cond r 0 (Rmax r (- x Cloud / dt)) (Rmin r (x Vapour / dt)).
  (** l.137-141, 168; liquid water is cloud and rain *)
  Definition latent_factor (x : state) : R :=
    let T := sa_T x in let liquid := x Cloud + x Rain in
    let R_m := R_d P + R_v P * x Vapour in
    let c_pml := cp P + c_pv P * x Vapour + c_pl P * liquid in
    let c_vml := cv P + c_vv P * x Vapour + c_pl P * liquid in
    - x Theta * (cv P * Lv P T / (c_vml * cp P * T) - R_v P * cv P * c_pml / (R_m * cp P * c_vml)).
  (** factors l.166-168, residual += source l.181-184 *)
  Definition saturation_adjustment (x : state) : state := fun v =>
    match v with
    | Vapour => sat_adj_rate x * 1
    | Cloud => sat_adj_rate x * -1
    | Theta => if latent_heat then sat_adj_rate x * latent_factor x else 0
    | _ => 0
    end.

  (** EvaporationOfRain: l.615-626 *)
  Definition evap_unlimited (x : state) : R :=
    let C := 1.6 + 124.9 * pow (rho * x Rain) 0.2046 in
    ((1 - x Vapour / sa_sat x) * C * pow (rho * x Rain) 0.525) / (rho * (540000 + 2550000 / (p_of P (sa_exner x) * sa_sat x))).
  (** l.628-630 *)
  Definition evap_rate (x : state) : R :=
    let r := evap_unlimited x in cond r 0 0 (cond (x Rain) 0 0 (Rmin r (x Rain / dt))).
  (** factors for rain, vapour, theta: l.636-638; residual += source: l.653-656 *)
  Definition evaporation_of_rain (x : state) : state := fun v =>
    match v with
    | Rain => evap_rate x * -1
    | Vapour => evap_rate x * 1
    | Theta => if latent_heat then evap_rate x * latent_factor x else 0
    | _ => 0
    end.
End SaturationAdjustment.

(** Coalescence, l.443-477 *)
Definition coalescence_rate (accretion accumulation : bool) (dt : R) (x : state) : R :=
  let accr := if accretion then 0.001 * (x Cloud - 0.001) else 0 in
  let accu := if accumulation then 2.2 * x Cloud * pow (x Rain) 0.875 else 0 in
  cond (x Rain) 0
    (cond accr 0 0 (Rmin accr (x Cloud / dt)))
    (cond (accr + accu) 0 0
      (cond accr 0 (Rmin accu (x Cloud / dt)) (Rmin (accr + accu) (x Cloud / dt)))).
(** microphysics.py l.443-477. *)
Definition coalescence (accretion accumulation : bool) (dt : R) (x : state) : state := fun v =>
  match v with Cloud => coalescence_rate accretion accumulation dt x | Rain => - coalescence_rate accretion accumulation dt x | _ => 0 end.

(** InstantRain, l.101-146: sat is the saturation value at the node; tau None means dt *)
Definition instant_rain_rate (gamma_r : R) (tau : option R) (sat dt : R) (x : state) : R :=
  let tau := match tau with Some t => t | None => dt end in
  cond sat (x Vapour) ((1 / tau) * gamma_r * (x Vapour - sat)) 0.
(** l.121-140.  convective_feedback multiplies the scalar test function of D by the source
    in the whole mixed space (l.139, "self.source" rather than a component): a form that
    is not scalar, which UFL rejects when the scheme is constructed, unless the mixed
    space has a single component. *)
Definition instant_rain (components : nat) (feedback : bool) (rain : bool) (gamma_r : R) (tau : option R) (sat dt : R) : res (state -> state) :=
  if feedback && negb (Nat.eqb components 1) then Err ValueError
  else Ok (fun x v => match v with
    | Vapour => instant_rain_rate gamma_r tau sat dt x
    | Rain => if rain then - instant_rain_rate gamma_r tau sat dt x else 0
    | _ => 0 end).

(** SWSaturationAdjustment, l.320-349 *)
Definition sw_rate (gamma_v : R) (tau : option R) (sat dt : R) (x : state) : R :=
  let tau := match tau with Some t => t | None => dt end in
  Rmax (Rmin (gamma_v * (x Vapour - sat) / tau) (x Vapour / tau)) (- x Cloud / tau).
(** shallow_water_microphysics.py l.320-349. *)
Definition sw_saturation_adjustment (beta1 beta2 : option R) (gamma_v : R) (tau : option R) (sat : state -> R) (dt : R) (x : state) : state := fun v =>
  let r := sw_rate gamma_v tau (sat x) dt x in
  match v with
  | Vapour => r * 1 | Cloud => r * -1
  | Depth => match beta1 with Some b => r * b | None => 0 end
  | Buoyancy => match beta2 with Some b => r * b | None => 0 end
  | _ => 0
  end.

(** ** TerminatorToy (chemistry.py) *)
Inductive species := X1 | X2.
(** general formulation, l.109-115: residual -= source *)
Definition terminator_residual (k1 k2 : R) (x : vec species) : vec species := fun v =>
  let Kx := k1 * x X2 - k2 * (x X1 * x X1) in match v with X1 => - (2 * Kx) | X2 => - (- Kx) end.
(** analytical formulation, l.81-93 *)
Definition terminator_unlimited (k1 k2 dt : R) (x : vec species) : R :=
  let X_T_0 := 4 / 1000000 in
  let r := k1 / (4 * k2) in
  let d := sqrt (r * r + 2 * X_T_0 * r) in
  let e := exp (- 4 * k2 * d * dt) in
  let e1 := cond (1 / 10000000000000000) (Rabs (d * k2 * dt)) ((1 - e) / (d * dt)) (4 * k2) in
  - e1 * (x X1 - d + r) * (x X1 + d + r) / (1 + e + dt * e1 * (x X1 + r)).
(** chemistry.py l.81-93. *)
Definition terminator_source (k1 k2 dt : R) (x : vec species) : R :=
  let s := terminator_unlimited k1 k2 dt x in cond s 0 (Rmax s (- x X1 / dt)) (Rmin s (2 * x X2 / dt)).
(** l.95-106: residual -= source for both species *)
Definition terminator_analytical (k1 k2 dt : R) (x : vec species) : vec species := fun v =>
  match v with X1 => - terminator_source k1 k2 dt x | X2 => - (- terminator_source k1 k2 dt x / 2) end.
(** one Euler step of a residual over any set of species *)
(** time_discretisation/explicit_runge_kutta.py l.457-505. *)
Definition euler_step_of {I} (dt : R) (residual : vec I -> vec I) (x : vec I) : vec I :=
  apply_increment tab_ForwardEuler 1 (fun x => x) dt (fun _ => vzero) (fun x v => - residual x v) 1 (fun _ => vzero) x.

(** ** SourceSink (physics_parametrisation.py l.115-117): residual += test * source *)
Definition source_sink {I} (rate : vec I) (x : vec I) : vec I := rate.
