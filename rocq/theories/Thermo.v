(** Model of gusto/equations/thermodynamics.py and of the parameters of
    CompressibleParameters (gusto/core/equation_configuration.py l.81-101) it uses.
    UFL's [x ** a] is modelled by [Rpower x a], equal to it for x > 0. *)
From Coq Require Import Reals.
Local Open Scope R_scope.

(** core/equation_configuration.py CompressibleParameters. *)
Record cparams := {
  cp : R; R_d : R; kappa : R; p_0 : R; cv : R; c_pl : R; c_pv : R; c_vv : R;
  R_v : R; L_v0 : R; T_0 : R; w_sat2 : R; w_sat3 : R; w_sat4 : R }.
(** the default values, l.86-100 *)
Definition default_params : cparams := {|
  cp := 1004.5; R_d := 287; kappa := 2/7; p_0 := 100000; cv := 717.5; c_pl := 4186; c_pv := 1885; c_vv := 1424;
  R_v := 461; L_v0 := 2500000; T_0 := 273.15; w_sat2 := -17.27; w_sat3 := 35.86; w_sat4 := 610.9 |}.

Section Thermo.
  Variable P : cparams.
  (** l.10-24 *)
  Definition theta_of (T p : R) : R := T * Rpower (p_0 P / p) (kappa P).
  (** l.27-43 *)
  Definition exner_pressure (rho theta_vd : R) : R := Rpower (rho * R_d P * theta_vd / p_0 P) (kappa P / (1 - kappa P)).
  (** l.46-64 *)
  Definition dexner_drho (rho theta_vd : R) : R :=
    (kappa P / (1 - kappa P)) * Rpower (rho * R_d P * theta_vd / p_0 P) (kappa P / (1 - kappa P)) / rho.
  (** l.67-85 *)
  Definition dexner_dtheta (rho theta_vd : R) : R :=
    (kappa P / (1 - kappa P)) * Rpower (rho * R_d P * theta_vd / p_0 P) (kappa P / (1 - kappa P)) / theta_vd.
  (** l.88-101 *)
  Definition p_of (exner : R) : R := p_0 P * Rpower exner (1 / kappa P).
  (** l.104-124; [None]: dry *)
  Definition T_of (theta_vd exner : R) (r_v : option R) : R :=
    match r_v with Some r => theta_vd * exner / (1 + r * R_v P / R_d P) | None => theta_vd * exner end.
  (** l.127-145 *)
  Definition rho_of (theta_vd exner : R) : R := p_0 P * Rpower exner (1 / kappa P - 1) / (R_d P * theta_vd).
  (** l.248-265 *)
  Definition e_sat (T : R) : R := w_sat4 P * exp (- w_sat2 P * (T - T_0 P) / (T - w_sat3 P)).
  (** l.148-164 *)
  Definition r_sat (T p : R) : R := e_sat T * (R_d P / R_v P) / (p - e_sat T).
  (** l.167-182 *)
  Definition Lv (T : R) : R := L_v0 P - (c_pl P - c_pv P) * (T - T_0 P).
  (** l.230-245 *)
  Definition RH (r_v T p : R) : R :=
    let eps := R_d P / R_v P in let rsat := r_sat T p in r_v * (1 + rsat / eps) / (rsat * (1 + r_v / eps)).
  (** l.185-206 *)
  Definition theta_e (T p r_v r_t : R) : R :=
    T * Rpower (p_0 P * (1 + r_v * R_v P / R_d P) / p) (R_d P / (cp P + c_pl P * r_t))
      * exp (Lv T * r_v / (T * (cp P + c_pl P * r_t))) * Rpower (RH r_v T p) (- r_v * R_v P / (cp P + c_pl P * r_t)).
  (** l.209-227 *)
  Definition internal_energy (rho T r_v r_l : R) : R := rho * (cv P * T + r_v * c_vv P * T + r_l * (c_pv P * T - Lv T)).
  (** l.268-283 *)
  Definition e_of (p r_v : R) : R := p * r_v / (R_d P / R_v P + r_v).
  (** l.286-303 *)
  Definition r_v_of (H T p : R) : R := let rsat := r_sat T p in H * rsat / (1 + (1 - H) * rsat / (R_d P / R_v P)).
End Thermo.
