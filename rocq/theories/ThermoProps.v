(** Theorems about the thermodynamic functions: C54. *)
From Coq Require Import Reals Lra.
From Verif Require Import Thermo.
Local Open Scope R_scope.

(** Physically admissible parameters *)
Record admissible (P : cparams) : Prop := {
  ad_kappa : 0 < kappa P < 1; ad_p0 : 0 < p_0 P; ad_Rd : 0 < R_d P; ad_Rv : 0 < R_v P; ad_w4 : 0 < w_sat4 P }.
Example default_admissible : admissible default_params.
Proof. split; simpl; lra. Qed.

Lemma Rpower_pos : forall x a, 0 < Rpower x a.
Proof. intros. apply exp_pos. Qed.
Lemma Rpower_inv_base : forall x a, 0 < x -> Rpower (/ x) a = / Rpower x a.
Proof. intros x a H. unfold Rpower. rewrite ln_Rinv by auto. rewrite <- exp_Ropp. f_equal. ring. Qed.

Section Props.
Variable P : cparams.
Hypothesis A : admissible P.
Let K : 0 < kappa P < 1 := ad_kappa P A.
Let HP0 : 0 < p_0 P := ad_p0 P A.
Let HRd : 0 < R_d P := ad_Rd P A.
Let HRv : 0 < R_v P := ad_Rv P A.

(** Density, potential temperature and Exner pressure *)
Theorem rho_of_exner : forall rho theta, 0 < rho -> 0 < theta ->
  rho_of P theta (exner_pressure P rho theta) = rho.
Proof.
  intros rho th Hr Ht. unfold rho_of, exner_pressure. rewrite Rpower_mult.
  replace (kappa P / (1 - kappa P) * (1 / kappa P - 1)) with 1 by (field; lra).
  rewrite Rpower_1. { field; lra. }
  apply Rdiv_lt_0_compat; auto. apply Rmult_lt_0_compat; auto. apply Rmult_lt_0_compat; auto.
Qed.
Theorem exner_of_rho : forall theta exner, 0 < theta -> 0 < exner ->
  exner_pressure P (rho_of P theta exner) theta = exner.
Proof.
  intros th ex Ht He. unfold rho_of, exner_pressure.
  replace (p_0 P * Rpower ex (1 / kappa P - 1) / (R_d P * th) * R_d P * th / p_0 P) with (Rpower ex (1 / kappa P - 1)) by (field; lra).
  rewrite Rpower_mult. replace ((1 / kappa P - 1) * (kappa P / (1 - kappa P))) with 1 by (field; lra).
  apply Rpower_1; auto.
Qed.
(** Pressure is the Exner pressure's definition inverted: exner = (p / p_0)^kappa *)
Theorem exner_is_pressure_power : forall exner, 0 < exner -> Rpower (p_of P exner / p_0 P) (kappa P) = exner.
Proof.
  intros ex He. unfold p_of. replace (p_0 P * Rpower ex (1 / kappa P) / p_0 P) with (Rpower ex (1 / kappa P)) by (field; lra).
  rewrite Rpower_mult. replace (1 / kappa P * kappa P) with 1 by (field; lra). apply Rpower_1; auto.
Qed.
(** The equation of state: p = rho R_d T (1 + r_v R_v / R_d) for moist air, rho R_d T for dry *)
Theorem ideal_gas_moist : forall rho theta r, 0 < rho -> 0 < theta -> 0 <= r ->
  let exner := exner_pressure P rho theta in
  p_of P exner = rho * R_d P * T_of P theta exner (Some r) * (1 + r * R_v P / R_d P).
Proof.
  intros rho th r Hr Ht Hv ex. unfold p_of, T_of, ex, exner_pressure.
  set (b := rho * R_d P * th / p_0 P).
  assert (B : 0 < b). { apply Rdiv_lt_0_compat; auto. apply Rmult_lt_0_compat; auto. apply Rmult_lt_0_compat; auto. }
  rewrite Rpower_mult. replace (kappa P / (1 - kappa P) * (1 / kappa P)) with (1 + kappa P / (1 - kappa P)) by (field; lra).
  rewrite Rpower_plus, Rpower_1 by auto.
  assert (0 < 1 + r * R_v P / R_d P).
  { assert (0 <= r * R_v P / R_d P); [|lra]. apply Rmult_le_pos; [apply Rmult_le_pos; lra|]. left. apply Rinv_0_lt_compat; auto. }
  replace (th * Rpower b (kappa P / (1 - kappa P)) / (1 + r * R_v P / R_d P)) with (/ (1 + r * R_v P / R_d P) * th * Rpower b (kappa P / (1 - kappa P))) by (unfold Rdiv; ring).
  assert (Eb : p_0 P * b = rho * R_d P * th) by (unfold b; field; lra).
  replace (p_0 P * (b * Rpower b (kappa P / (1 - kappa P)))) with (p_0 P * b * Rpower b (kappa P / (1 - kappa P))) by ring.
  rewrite Eb. set (q := 1 + r * R_v P / R_d P) in *.
  replace (rho * R_d P * (/ q * th * Rpower b (kappa P / (1 - kappa P))) * q) with (rho * R_d P * th * Rpower b (kappa P / (1 - kappa P)) * (/ q * q)) by ring.
  rewrite Rinv_l by lra. ring.
Qed.
Theorem ideal_gas_dry : forall rho theta, 0 < rho -> 0 < theta ->
  let exner := exner_pressure P rho theta in p_of P exner = rho * R_d P * T_of P theta exner None.
Proof.
  intros rho th Hr Ht ex. pose proof (ideal_gas_moist rho th 0 Hr Ht (Rle_refl 0)) as H. simpl in H.
  unfold ex. simpl. rewrite H. unfold T_of. replace (1 + 0 * R_v P / R_d P) with 1 by (field; lra). field.
Qed.
(** Temperature and potential temperature *)
Theorem theta_of_T_dry : forall theta exner, 0 < exner -> theta_of P (T_of P theta exner None) (p_of P exner) = theta.
Proof.
  intros th ex He. unfold theta_of, T_of, p_of.
  replace (p_0 P / (p_0 P * Rpower ex (1 / kappa P))) with (/ Rpower ex (1 / kappa P)) by (field; pose proof (Rpower_pos ex (1 / kappa P)); lra).
  rewrite Rpower_inv_base by apply Rpower_pos. rewrite Rpower_mult. replace (1 / kappa P * kappa P) with 1 by (field; lra).
  rewrite Rpower_1 by auto. field; lra.
Qed.
Theorem theta_of_T_moist : forall theta exner r, 0 < exner -> 0 <= r ->
  theta_of P (T_of P theta exner (Some r)) (p_of P exner) * (1 + r / (R_d P / R_v P)) = theta.
Proof.
  intros th ex r He Hr. rewrite <- (theta_of_T_dry th ex He) at 2. unfold theta_of, T_of.
  assert (0 < 1 + r * R_v P / R_d P).
  { assert (0 <= r * R_v P / R_d P); [|lra]. apply Rmult_le_pos; [apply Rmult_le_pos; lra|]. left. apply Rinv_0_lt_compat; auto. }
  replace (1 + r / (R_d P / R_v P)) with (1 + r * R_v P / R_d P) by (field; lra).
  set (q := 1 + r * R_v P / R_d P) in *. field. lra.
Qed.
(** Temperature recovered from potential temperature at the same pressure *)
Theorem T_of_theta : forall T exner, 0 < exner -> T_of P (theta_of P T (p_of P exner)) exner None = T.
Proof.
  intros T ex He. unfold T_of, theta_of, p_of.
  replace (p_0 P / (p_0 P * Rpower ex (1 / kappa P))) with (/ Rpower ex (1 / kappa P)) by (field; pose proof (Rpower_pos ex (1 / kappa P)); lra).
  rewrite Rpower_inv_base by apply Rpower_pos. rewrite Rpower_mult. replace (1 / kappa P * kappa P) with 1 by (field; lra).
  rewrite Rpower_1 by auto. field; lra.
Qed.

(** Humidity.  [subsaturated_pressure]: the air pressure exceeds the saturation vapour
    pressure (no boiling), so the saturation mixing ratio is positive. *)
Lemma e_sat_pos : forall T, 0 < e_sat P T.
Proof. intros. apply Rmult_lt_0_compat; [apply (ad_w4 P A)|apply exp_pos]. Qed.
Theorem r_sat_pos : forall T p, e_sat P T < p -> 0 < r_sat P T p.
Proof.
  intros T p H. unfold r_sat. apply Rdiv_lt_0_compat; [|lra]. apply Rmult_lt_0_compat; [apply e_sat_pos|apply Rdiv_lt_0_compat; auto].
Qed.
Theorem RH_of_r_v : forall H T p, e_sat P T < p -> 0 <= H <= 1 -> RH P (r_v_of P H T p) T p = H.
Proof.
  intros H T p He HH. unfold RH, r_v_of. pose proof (r_sat_pos T p He) as RS. set (rs := r_sat P T p) in *.
  assert (E : 0 < R_d P / R_v P) by (apply Rdiv_lt_0_compat; auto). set (eps := R_d P / R_v P) in *.
  assert (Q : 0 <= (1 - H) * rs) by (apply Rmult_le_pos; lra).
  assert (D : 0 < eps + (1 - H) * rs) by lra.
  assert (D2 : 1 + (1 - H) * rs / eps <> 0).
  { replace (1 + (1 - H) * rs / eps) with ((eps + (1 - H) * rs) / eps) by (field; lra). apply Rgt_not_eq, Rdiv_lt_0_compat; auto. }
  assert (D3 : 1 + H * rs / (1 + (1 - H) * rs / eps) / eps = (eps + rs) / (eps + (1 - H) * rs)).
  { field. repeat split; try lra. }
  rewrite D3. field. repeat split; lra.
Qed.
Theorem r_v_of_RH : forall r T p, e_sat P T < p -> 0 <= r -> r_v_of P (RH P r T p) T p = r.
Proof.
  intros r T p He Hr. unfold RH, r_v_of. pose proof (r_sat_pos T p He) as RS. set (rs := r_sat P T p) in *.
  assert (E : 0 < R_d P / R_v P) by (apply Rdiv_lt_0_compat; auto). set (eps := R_d P / R_v P) in *.
  assert (H1 : r * (1 + rs / eps) / (rs * (1 + r / eps)) = r * (eps + rs) / (rs * (eps + r))) by (field; lra).
  rewrite H1.
  assert (H2 : 1 + (1 - r * (eps + rs) / (rs * (eps + r))) * rs / eps = (eps + rs) / (eps + r)) by (field; lra).
  rewrite H2. field. lra.
Qed.
(** Relative humidity is the ratio of the vapour's partial pressure to its saturated value *)
Theorem RH_is_pressure_ratio : forall r T p, e_sat P T < p -> 0 <= r -> RH P r T p = e_of P p r / e_sat P T.
Proof.
  intros r T p He Hr. pose proof (e_sat_pos T) as ES. unfold RH, e_of, r_sat.
  assert (E : 0 < R_d P / R_v P) by (apply Rdiv_lt_0_compat; auto). set (eps := R_d P / R_v P) in *.
  set (es := e_sat P T) in *. field. repeat split; lra.
Qed.
Theorem e_of_r_sat : forall T p, e_sat P T < p -> e_of P p (r_sat P T p) = e_sat P T.
Proof.
  intros T p He. pose proof (e_sat_pos T) as ES. unfold e_of, r_sat.
  assert (E : 0 < R_d P / R_v P) by (apply Rdiv_lt_0_compat; auto). set (eps := R_d P / R_v P) in *.
  set (es := e_sat P T) in *.
  replace (eps + es * eps / (p - es)) with (eps * p / (p - es)) by (field; lra). field. repeat split; lra.
Qed.
(** Saturation is exactly relative humidity one *)
Theorem RH_one_iff_saturated : forall r T p, e_sat P T < p -> 0 <= r -> (RH P r T p = 1 <-> r = r_sat P T p) /\ (RH P r T p < 1 <-> r < r_sat P T p).
Proof.
  intros r T p He Hr. pose proof (r_sat_pos T p He) as RS.
  assert (E : 0 < R_d P / R_v P) by (apply Rdiv_lt_0_compat; auto).
  assert (D : RH P r T p - 1 = (r - r_sat P T p) * (R_d P / R_v P / (r_sat P T p * (R_d P / R_v P + r)))).
  { unfold RH. set (rs := r_sat P T p) in *. set (eps := R_d P / R_v P) in *. field. repeat split; lra. }
  assert (Q : 0 < R_d P / R_v P / (r_sat P T p * (R_d P / R_v P + r))).
  { apply Rdiv_lt_0_compat; auto. apply Rmult_lt_0_compat; lra. }
  set (q := R_d P / R_v P / (r_sat P T p * (R_d P / R_v P + r))) in *.
  split; split; intros H.
  - assert (Z : (r - r_sat P T p) * q = 0) by lra. apply Rmult_integral in Z. lra.
  - subst. replace (r_sat P T p - r_sat P T p) with 0 in D by ring. lra.
  - assert ((r - r_sat P T p) * q < 0) by lra. destruct (Rlt_le_dec r (r_sat P T p)); auto.
    assert (0 <= (r - r_sat P T p) * q) by (apply Rmult_le_pos; lra). lra.
  - assert (0 < (r_sat P T p - r) * q) by (apply Rmult_lt_0_compat; lra). lra.
Qed.

(** The Exner derivatives are the true derivatives *)
Lemma deriv_ext : forall f g x l, (forall y, f y = g y) -> derivable_pt_lim f x l -> derivable_pt_lim g x l.
Proof. intros f g x l E H eps He. destruct (H eps He) as [d Hd]. exists d. intros h Hh Hl. rewrite <- !E. auto. Qed.
Lemma power_linear_deriv : forall c a x, 0 < c -> 0 < x ->
  derivable_pt_lim (fun y => Rpower (c * y) a) x (a * Rpower (c * x) a / x).
Proof.
  intros c a x Hc Hx.
  assert (CX : 0 < c * x) by (apply Rmult_lt_0_compat; auto).
  replace (a * Rpower (c * x) a / x) with ((a * Rpower (c * x) (a - 1)) * c).
  - apply (derivable_pt_lim_comp (fun y => c * y) (fun z => Rpower z a)).
    + assert (D : derivable_pt_lim (mult_real_fct c id) x (c * 1)) by (apply derivable_pt_lim_scal; apply derivable_pt_lim_id).
      rewrite Rmult_1_r in D. exact D.
    + apply derivable_pt_lim_power; auto.
  - assert (E : Rpower (c * x) a = Rpower (c * x) (a - 1) * (c * x)).
    { rewrite <- (Rpower_1 (c * x)) at 3 by auto. rewrite <- Rpower_plus. f_equal. ring. }
    rewrite E. field. lra.
Qed.
Theorem dexner_drho_is_derivative : forall rho theta, 0 < rho -> 0 < theta ->
  derivable_pt_lim (fun r => exner_pressure P r theta) rho (dexner_drho P rho theta).
Proof.
  intros rho th Hr Ht.
  apply deriv_ext with (fun r => Rpower ((R_d P * th / p_0 P) * r) (kappa P / (1 - kappa P))).
  { intros. unfold exner_pressure. f_equal. field. lra. }
  unfold dexner_drho. replace (rho * R_d P * th / p_0 P) with (R_d P * th / p_0 P * rho) by (field; lra).
  apply power_linear_deriv; auto. apply Rdiv_lt_0_compat; auto. apply Rmult_lt_0_compat; auto.
Qed.
Theorem dexner_dtheta_is_derivative : forall rho theta, 0 < rho -> 0 < theta ->
  derivable_pt_lim (fun th => exner_pressure P rho th) theta (dexner_dtheta P rho theta).
Proof.
  intros rho th Hr Ht.
  apply deriv_ext with (fun t => Rpower ((rho * R_d P / p_0 P) * t) (kappa P / (1 - kappa P))).
  { intros. unfold exner_pressure. f_equal. field. lra. }
  unfold dexner_dtheta. replace (rho * R_d P * th / p_0 P) with (rho * R_d P / p_0 P * th) by (field; lra).
  apply power_linear_deriv; auto. apply Rdiv_lt_0_compat; auto. apply Rmult_lt_0_compat; auto.
Qed.

(** Without water the wet-equivalent potential temperature is the potential temperature *)
Theorem theta_e_dry : forall T p, kappa P = R_d P / cp P -> theta_e P T p 0 0 = theta_of P T p.
Proof.
  intros T p Hk. unfold theta_e, theta_of.
  replace (1 + 0 * R_v P / R_d P) with 1 by (field; lra).
  replace (Lv P T * 0 / (T * (cp P + c_pl P * 0))) with 0 by (unfold Rdiv; rewrite Rmult_0_r, Rmult_0_l; reflexivity).
  replace (Ropp 0 * R_v P / (cp P + c_pl P * 0)) with 0 by (unfold Rdiv; rewrite Ropp_0, !Rmult_0_l; reflexivity).
  rewrite exp_0. replace (Rpower (RH P 0 T p) 0) with 1 by (unfold Rpower; rewrite Rmult_0_l, exp_0; auto).
  replace (cp P + c_pl P * 0) with (cp P) by ring. rewrite <- Hk, !Rmult_1_r. reflexivity.
Qed.
(** Evaporating water at fixed temperature costs the latent heat less the work done
    against pressure *)
Theorem phase_change_energy : forall rho T r_v r_l d, c_pv P - c_vv P = R_v P ->
  internal_energy P rho T (r_v + d) (r_l - d) - internal_energy P rho T r_v r_l = rho * d * (Lv P T - R_v P * T).
Proof. intros rho T rv rl d H. unfold internal_energy. rewrite <- H. ring. Qed.
End Props.

(** Saturation pressure increases with temperature (above 35.86 K) for the default constants *)
Lemma e_sat_increasing_gen : forall P T1 T2, 0 < w_sat4 P -> w_sat2 P < 0 -> w_sat3 P < T_0 P -> w_sat3 P < T1 -> T1 < T2 -> e_sat P T1 < e_sat P T2.
Proof.
  intros P T1 T2 H4 H2 H0 H1 H. unfold e_sat. apply Rmult_lt_compat_l; auto. apply exp_increasing.
  assert (E : forall T, w_sat3 P < T -> - w_sat2 P * (T - T_0 P) / (T - w_sat3 P) = - w_sat2 P - (- w_sat2 P * (T_0 P - w_sat3 P)) * / (T - w_sat3 P)).
  { intros T HT. field. lra. }
  rewrite !E by lra.
  assert (I : / (T2 - w_sat3 P) < / (T1 - w_sat3 P)). { apply Rinv_lt_contravar; [apply Rmult_lt_0_compat; lra|lra]. }
  assert (Q : 0 < - w_sat2 P * (T_0 P - w_sat3 P)) by (apply Rmult_lt_0_compat; lra).
  pose proof (Rmult_lt_compat_l _ _ _ Q I). lra.
Qed.
Theorem e_sat_increasing : forall T1 T2, w_sat3 default_params < T1 -> T1 < T2 -> e_sat default_params T1 < e_sat default_params T2.
Proof. intros. apply e_sat_increasing_gen; simpl in *; lra. Qed.
Example default_consistent : kappa default_params = R_d default_params / cp default_params /\
  cp default_params - cv default_params = R_d default_params /\ c_pv default_params - c_vv default_params = R_v default_params.
Proof. simpl. lra. Qed.
(** a state that meets the hypotheses: 0 degrees C at the reference pressure *)
Example default_state : e_sat default_params (T_0 default_params) < p_0 default_params.
Proof. unfold e_sat. simpl. replace (- -17.27 * (273.15 - 273.15) / (273.15 - 35.86)) with 0 by lra. rewrite exp_0. lra. Qed.

Print Assumptions ideal_gas_moist.
Print Assumptions dexner_drho_is_derivative.
Print Assumptions RH_of_r_v.

Lemma affine_deriv a b x : derivable_pt_lim (fun s => a * s + b) x a.
Proof.
  pose proof (derivable_pt_lim_plus (fun s => a * s) (fun _ => b) x (a * 1) 0) as H. replace (a * 1 + 0) with a in H by ring. apply H.
  - apply (derivable_pt_lim_scal (fun s => s)). apply derivable_pt_lim_id.
  - apply derivable_pt_lim_const.
Qed.
(** The heat capacity of moist air: the derivative of the internal energy with respect to temperature is
    c_v + r_v c_vv + r_l c_pl, per unit mass of dry air. *)
Theorem internal_energy_heat_capacity : forall P rho T r_v r_l,
  derivable_pt_lim (fun s => internal_energy P rho s r_v r_l) T (rho * (cv P + r_v * c_vv P + r_l * c_pl P)).
Proof.
  intros P rho T rv rl.
  apply deriv_ext with (fun s => (rho * (cv P + rv * c_vv P + rl * c_pl P)) * s + (- rho * rl * (L_v0 P + (c_pl P - c_pv P) * T_0 P))).
  { intros s. unfold internal_energy, Lv. ring. }
  apply affine_deriv.
Qed.
(** Kirchhoff: the latent heat is L_v0 at T_0 and changes with temperature at the rate c_pv - c_pl. *)
Theorem latent_heat_kirchhoff : forall P T, Lv P (T_0 P) = L_v0 P /\ derivable_pt_lim (Lv P) T (c_pv P - c_pl P).
Proof.
  intros P T. split; [unfold Lv; ring|].
  apply deriv_ext with (fun s => (c_pv P - c_pl P) * s + (L_v0 P + (c_pl P - c_pv P) * T_0 P)). { intros; unfold Lv; ring. }
  apply affine_deriv.
Qed.
(** The wet-equivalent potential temperature is the documented one: with p_d = p - e the partial pressure of dry air and
    c = c_p + c_pl r_t,  theta_e = T (p_0/p_d)^(R_d/c) H^(-r_v R_v/c) exp(L_v r_v / (c T)). *)
Theorem theta_e_documented : forall P T p r_v r_t, admissible P -> 0 < p -> 0 <= r_v ->
  let p_d := p - e_of P p r_v in let c := cp P + c_pl P * r_t in
  theta_e P T p r_v r_t = T * Rpower (p_0 P / p_d) (R_d P / c) * Rpower (RH P r_v T p) (- r_v * R_v P / c) * exp (Lv P T * r_v / (T * c)).
Proof.
  intros P T p rv rt [_ H0 Hd Hv _] Hp Hr pd c. unfold theta_e. fold c.
  replace (p_0 P * (1 + rv * R_v P / R_d P) / p) with (p_0 P / pd); [ring|].
  unfold pd, e_of. assert (0 <= rv * R_v P) by (apply Rmult_le_pos; lra). field. repeat split; try lra.
  - assert (0 < p * R_d P) by (apply Rmult_lt_0_compat; assumption).
    replace (p * (R_d P + rv * R_v P) - p * rv * R_v P) with (p * R_d P) by ring. lra.
Qed.
Print Assumptions theta_e_documented.
