(** C95-C98: the compressible Euler equations. *)
From Verif Require Import Base Vec Transport TransportProps CommonForms CommonFormsProps Equations EquationsProps Thermo ThermoProps Compressible.
From Coq Require Import String.
Open Scope R_scope.

(** ** C95.  Moist air obeys the first law of thermodynamics *)
Record consistent (P : cparams) : Prop := {
  co_adm : admissible P; co_cp : cp P = cv P + R_d P; co_cpv : c_pv P = c_vv P + R_v P; co_kappa : kappa P = R_d P / cp P;
  co_cv : 0 < cv P; co_cvv : 0 <= c_vv P; co_cpl : 0 <= c_pl P }.
Example default_consistent : consistent default_params.
Proof. split; cbn; try lra. exact default_admissible. Qed.

Lemma deriv_ln_pow a b (f : R -> R) t f' : 0 < a -> 0 < f t -> derivable_pt_lim f t f' ->
  derivable_pt_lim (fun s => Rpower (a * f s) b) t (b * Rpower (a * f t) b * f' / f t).
Proof.
  intros Ha Hf D.
  replace (b * Rpower (a * f t) b * f' / f t) with ((b * Rpower (a * f t) b / f t) * f') by (field; lra).
  apply (derivable_pt_lim_comp f (fun y => Rpower (a * y) b)); [exact D|]. apply power_linear_deriv; assumption.
Qed.
(** the temperature of an air parcel whose density and potential temperature change at given relative rates *)
Lemma temperature_rate P (theta rho : R -> R) r t th' rh' : admissible P -> 0 < theta t -> 0 < rho t -> 0 <= r ->
  derivable_pt_lim theta t (theta t * th') -> derivable_pt_lim rho t (rho t * rh') ->
  derivable_pt_lim (fun s => T_of P (theta s) (exner_pressure P (rho s) (theta s)) (Some r)) t
    (T_of P (theta t) (exner_pressure P (rho t) (theta t)) (Some r) * (th' + kappa P / (1 - kappa P) * (th' + rh'))).
Proof.
  intros [K Hp HR HV _] Ht Hr Hq D1 D2. unfold T_of, exner_pressure.
  set (c := R_d P / p_0 P). set (b := kappa P / (1 - kappa P)).
  assert (Hc : 0 < c) by (apply Rdiv_lt_0_compat; lra).
  set (q := 1 + r * R_v P / R_d P).
  assert (Q : 0 < q). { unfold q. assert (0 <= r * R_v P / R_d P) by (apply Rmult_le_pos; [apply Rmult_le_pos; lra | left; apply Rinv_0_lt_compat; lra]). lra. }
  apply (deriv_ext (fun s => / q * (theta s * Rpower (c * (rho s * theta s)) b))).
  { intros s. unfold c. replace (R_d P / p_0 P * (rho s * theta s)) with (rho s * R_d P * theta s / p_0 P) by (field; lra). unfold Rdiv. ring. }
  set (E := Rpower (c * (rho t * theta t)) b).
  replace (theta t * Rpower (rho t * R_d P * theta t / p_0 P) b / q * (th' + b * (th' + rh')))
    with (/ q * (theta t * th' * E + theta t * (b * E * (rho t * rh' * theta t + rho t * (theta t * th')) / (rho t * theta t)))).
  2:{ unfold E, c. replace (R_d P / p_0 P * (rho t * theta t)) with (rho t * R_d P * theta t / p_0 P) by (field; lra). field. lra. }
  apply (derivable_pt_lim_scal (fun s => theta s * Rpower (c * (rho s * theta s)) b)).
  apply (derivable_pt_lim_mult theta (fun s => Rpower (c * (rho s * theta s)) b)); [exact D1|].
  apply (deriv_ln_pow c b (fun s => rho s * theta s)); [exact Hc | apply Rmult_lt_0_compat; assumption |].
  apply (derivable_pt_lim_mult rho theta); assumption.
Qed.

(** An air parcel with vapour and liquid water mixing ratios r_v and r_l, expanding at the rate delta = div u:
    d rho/dt = - rho delta (the continuity equation) and d theta/dt = - theta delta m with m the factor of the
    moist divergence term.  Its temperature changes exactly by the work done against pressure:
    (c_v + r_v c_vv + r_l c_pl) dT/dt = - (p / rho) delta. *)
Theorem moist_expansion_first_law :
  forall P (theta rho : R -> R) r_v r_l t delta, consistent P -> 0 < theta t -> 0 < rho t -> 0 <= r_v -> 0 <= r_l ->
  derivable_pt_lim rho t (- rho t * delta) ->
  derivable_pt_lim theta t (- (theta t * delta * moist_coefficient P r_v r_l)) ->
  let exner := fun s => exner_pressure P (rho s) (theta s) in
  exists T', derivable_pt_lim (fun s => T_of P (theta s) (exner s) (Some r_v)) t T' /\
             (cv P + r_v * c_vv P + r_l * c_pl P) * T' = - (p_of P (exner t) / rho t) * delta.
Proof.
  intros P theta rho rv rl t delta C Ht Hr Hv Hl D1 D2 exner.
  pose proof (co_adm P C) as A. pose proof A as [K Hp HR HV _]. destruct C as [_ C1 C2 C3 C4 C5 C6].
  assert (CV : 0 < cv P + rv * c_vv P + rl * c_pl P).
  { assert (0 <= rv * c_vv P) by (apply Rmult_le_pos; lra). assert (0 <= rl * c_pl P) by (apply Rmult_le_pos; lra). lra. }
  eexists. split.
  - apply (temperature_rate P theta rho rv t (- (delta * moist_coefficient P rv rl)) (- delta) A Ht Hr Hv).
    + replace (theta t * - (delta * moist_coefficient P rv rl)) with (- (theta t * delta * moist_coefficient P rv rl)) by ring. exact D2.
    + replace (rho t * - delta) with (- rho t * delta) by ring. exact D1.
  - unfold exner. rewrite (ideal_gas_moist P A (rho t) (theta t) rv Hr Ht Hv).
    set (T := T_of P _ _ _). unfold moist_coefficient, R_m, c_pml, c_vml.
    replace (kappa P / (1 - kappa P)) with (R_d P / cv P) by (rewrite C3, C1; field; lra).
    rewrite C2, C1. field. lra.
Qed.
Print Assumptions moist_expansion_first_law.

Lemma total_mr_dry p ts X k : (forall t, In t ts -> p t = true -> sv (tr_of t X) k = 0) -> sv (total_mr p ts X) k = 0.
Proof.
  induction ts as [|t ts IH]; intros H; [reflexivity|]. cbn [total_mr fold_right]. fold (total_mr p ts X).
  destruct (p t) eqn:E; cbn [sadd sv].
  - rewrite (H t (or_introl eq_refl) E), IH by (intros; apply H; [right|]; assumption). ring.
  - apply IH. intros; apply H; [right|]; assumption.
Qed.
(** Without water vapour or liquid water the term vanishes and theta is conserved following the flow. *)
Theorem moist_term_dry :
  forall G d P ts X T, 0 < cp P -> 0 < cv P ->
  (forall t k, In t ts -> tr_H2O t = true -> tr_mixing t = true -> tr_phase t = Gas \/ tr_phase t = Liquid -> sv (tr_of t X) k = 0) ->
  euler_moist G d P ts X T = 0.
Proof.
  intros G d P ts X T Hp Hv H. unfold euler_moist. apply dx_0. intros k.
  assert (W : forall ph, ph = Gas \/ ph = Liquid -> sv (total_mr (water ph) ts X) k = 0).
  { intros ph Hph. apply total_mr_dry. intros t Ht E. unfold water in E. apply andb_prop in E. destruct E as [E Ep]. apply andb_prop in E. destruct E as [E1 E2].
    apply H; [exact Ht|exact E1|exact E2|]. destruct Hph as [-> | ->]; destruct (tr_phase t); try discriminate; auto. }
  rewrite !W by auto. unfold moist_coefficient, R_m, c_pml, c_vml. rewrite !Rmult_0_l, !Rplus_0_r.
  replace (R_d P / cv P - R_d P * cp P / (cp P * cv P)) with 0 by (field; lra). ring.
Qed.
(** The moist and dry terms are those of the residual: which tracers count is decided by their metadata. *)
Theorem moist_term_documented :
  forall G d P ts X T (rv rl : nat -> R),
  (forall k, rv k = fold_right (fun t acc => (if tr_H2O t && tr_mixing t && phase_eqb (tr_phase t) Gas then sv (tr_of t X) k else 0) + acc) 0 ts) ->
  (forall k, rl k = fold_right (fun t acc => (if tr_H2O t && tr_mixing t && phase_eqb (tr_phase t) Liquid then sv (tr_of t X) k else 0) + acc) 0 ts) ->
  euler_moist G d P ts X T =
  dx G (fun k => sv (f_b T) k * sv (f_b X) k * v_div d (u_at (f_u X) k) *
     ((R_d P + rv k * R_v P) / (cv P + rv k * c_vv P + rl k * c_pl P)
      - R_d P * (cp P + rv k * c_pv P + rl k * c_pl P) / (cp P * (cv P + rv k * c_vv P + rl k * c_pl P)))).
Proof.
  intros G d P ts X T rv rl Hv Hl. unfold euler_moist. apply dx_ext. intros k.
  assert (E : forall ph, sv (total_mr (water ph) ts X) k = fold_right (fun t acc => (if tr_H2O t && tr_mixing t && phase_eqb (tr_phase t) ph then sv (tr_of t X) k else 0) + acc) 0 ts).
  { intros ph. clear. induction ts as [|t ts IH]; [reflexivity|]. cbn [total_mr fold_right]. fold (total_mr (water ph) ts X). unfold water at 1.
    destruct (tr_H2O t && tr_mixing t && phase_eqb (tr_phase t) ph); cbn [sadd sv]; rewrite IH; ring. }
  rewrite !E, <- Hv, <- Hl. reflexivity.
Qed.
(** a moist expanding parcel: the hypotheses can be met with water present *)
Example moist_parcel :
  let P := default_params in let m := moist_coefficient P (1/100) (1/100) in
  consistent P /\ derivable_pt_lim (fun s => exp (- s)) 0 (- exp (- 0) * 1) /\
  derivable_pt_lim (fun s => exp (- (m * s))) 0 (- (exp (- (m * 0)) * 1 * m)).
Proof.
  intros P m. split; [exact default_consistent|].
  assert (D : forall c, derivable_pt_lim (fun s => exp (- (c * s))) 0 (- (exp (- (c * 0)) * 1 * c))).
  { intros c. replace (- (exp (- (c * 0)) * 1 * c)) with (exp (- (c * 0)) * (- (c * 1))) by ring.
    apply (derivable_pt_lim_comp (fun s => - (c * s)) exp).
    - apply derivable_pt_lim_opp. apply (derivable_pt_lim_scal (fun s => s)). apply derivable_pt_lim_id.
    - apply derivable_pt_lim_exp. }
  split; [|apply D]. specialize (D 1). apply (deriv_ext (fun s => exp (- (1 * s)))); [intros; f_equal; ring|].
  replace (- exp (- 0) * 1) with (- (exp (- (1 * 0)) * 1 * 1)); [exact D|]. rewrite Rmult_0_r. ring.
Qed.

(** ** C96.  Hydrostatic balance *)
(** the divergence theorem for s w, evaluated with the quadrature rules *)
Definition divergence_theorem (G : geometry) (d : nat) (s : sfield) (w : velocity_field) : Prop :=
  dx G (fun k => sv s k * v_div d (u_at w k) + vdot d (v_val (u_at w k)) (sg s k))
  = dS_ G (fun f => sp s f * u_np w f + sm s f * u_nm w f) + ds_ G (fun b => sb s b * u_nb w b).
(** w is continuous in the normal direction and s is continuous across horizontal facets *)
Definition column_continuous (vertical : nat -> bool) (s : sfield) (w : velocity_field) : Prop :=
  forall f, vertical f = false -> sp s f = sm s f /\ u_np w f = - u_nm w f.
Definition no_outflow (w : velocity_field) : Prop := forall b, u_nb w b = 0.
Definition continuous_field (s : sfield) : Prop := forall f, sp s f = sm s f.

(** The pressure gradient force is c_p theta_v grad(Pi), tested with w, when Pi is continuous. *)
Theorem pressure_gradient_documented :
  forall G d vertical P ts X T, let th := theta_v ts X in let Pi := exner_field P X in let w := f_u T in
  continuous_field Pi -> column_continuous vertical th w -> no_outflow w -> divergence_theorem G d (product th Pi) w ->
  euler_pressure G d vertical P ts X T = cp P * dx G (fun k => sv th k * vdot d (v_val (u_at w k)) (sg Pi k)).
Proof.
  intros G d vertical P ts X T th Pi w Hc Hh Hb Hd. unfold euler_pressure, dS_v. cbv zeta. fold th Pi w. f_equal.
  unfold divergence_theorem in Hd. unfold product in Hd. cbn [sv sg sp sm sb] in Hd.
  rewrite (dx_ext G _ (fun k => (sv th k * v_div d (u_at w k) + vdot d (v_val (u_at w k)) (sg th k)) * sv Pi k
                               + sv th k * vdot d (v_val (u_at w k)) (sg Pi k))) in Hd.
  2:{ intros k. unfold vdot. rewrite Rmult_plus_distr_r, <- !rsum_scal. rewrite (Rmult_comm (rsum _ _) (sv Pi k)), <- rsum_scal.
      rewrite Rplus_assoc, <- rsum_add. f_equal; [ring|]. apply rsum_ext. intros. ring. }
  rewrite dx_plus in Hd.
  assert (B : ds_ G (fun b => sb th b * sb Pi b * u_nb w b) = 0) by (unfold ds_; apply rsum_0; intros; rewrite Hb; ring).
  assert (S : dS_ G (fun f => if vertical f then jump_ th w f * avg_ Pi f else 0) = dS_ G (fun f => sp th f * sp Pi f * u_np w f + sm th f * sm Pi f * u_nm w f)).
  { apply dS_ext. intros f. unfold jump_, avg_. rewrite <- (Hc f). destruct (vertical f) eqn:E; [field|].
    destruct (Hh f E) as [-> ->]. ring. }
  rewrite S. lra.
Qed.
(** In particular it vanishes where Pi is uniform. *)
Theorem pressure_gradient_uniform :
  forall G d vertical P ts X T c, let th := theta_v ts X in let w := f_u T in
  (forall k, sv (exner_field P X) k = c) -> (forall f, sp (exner_field P X) f = c /\ sm (exner_field P X) f = c) ->
  column_continuous vertical th w -> no_outflow w -> divergence_theorem G d th w ->
  euler_pressure G d vertical P ts X T = 0.
Proof.
  intros G d vertical P ts X T c th w H1 H2 Hh Hb Hd. unfold euler_pressure, dS_v. cbv zeta. fold th w.
  rewrite (dx_ext G _ (fun k => c * (sv th k * v_div d (u_at w k) + vdot d (v_val (u_at w k)) (sg th k)))) by (intros k; rewrite H1; ring).
  rewrite dx_scale, Hd.
  assert (B : ds_ G (fun b => sb th b * u_nb w b) = 0) by (unfold ds_; apply rsum_0; intros; rewrite Hb; ring).
  rewrite (dS_ext G (fun f => if vertical f then _ else 0) (fun f => c * (sp th f * u_np w f + sm th f * u_nm w f))).
  { rewrite dS_scale, B. ring. }
  intros f. unfold jump_, avg_. destruct (H2 f) as [-> ->]. destruct (vertical f) eqn:E; [field|]. destruct (Hh f E) as [-> ->]. ring.
Qed.

(** A state of rest in hydrostatic balance, c_p theta_v grad(Pi) = - g k, is a steady state of the equations, with
    or without moisture, rotation and sponge layer. *)
Theorem hydrostatic_rest_is_steady :
  forall G d circ kvec vertical P opt lm g ts Om sponge r X T,
  circ_vanishes circ ->
  compressible_euler G d circ kvec vertical P opt lm g ts [] Om sponge = Ok r ->
  let th := theta_v ts X in let Pi := exner_field P X in let w := f_u T in
  at_rest (f_u X) -> (forall k i, cp P * sv th k * sg Pi k i = - g * kvec k i) ->
  continuous_field Pi -> column_continuous vertical th w -> no_outflow w -> divergence_theorem G d (product th Pi) w ->
  spatial r X T = 0.
Proof.
  intros G d circ kvec vertical P opt lm g ts Om sponge r X T C Hr th Pi w HX Hbal Hc Hh Hb Hd. unfold compressible_euler in Hr.
  destruct (u_transport _ _ _ _ _) as [ru|] eqn:E; [|discriminate].
  destruct (u_transport_at_rest _ _ _ _ _ _ C E) as [Hu _].
  assert (PG : euler_pressure G d vertical P ts X T + euler_gravity G d kvec g X T = 0).
  { rewrite (pressure_gradient_documented G d vertical P ts X T Hc Hh Hb Hd). unfold euler_gravity. fold w.
    rewrite <- !dx_scale, <- dx_plus. apply dx_0. intros k. fold th Pi w. unfold vdot.
    rewrite <- !rsum_scal, <- rsum_add. apply rsum_0. intros i _. pose proof (Hbal k i) as B.
    replace (cp P * (sv th k * (v_val (u_at w k) i * sg Pi k i))) with (v_val (u_at w k) i * (cp P * sv th k * sg Pi k i)) by ring. rewrite B. ring. }
  assert (CT : dx G (fun k => continuity d (sv (f_D T) k) (at_ (f_D X) k) (u_at (f_u X) k)) = 0).
  { apply dx_0. intros k. unfold continuity. rewrite (v_div_zero d _ (HX k)). rewrite (rsum_0 d); [ring|]. intros i _. rewrite (proj1 (HX k i 0%nat)). ring. }
  assert (AT : dx G (fun k => advection d (sv (f_b T) k) (at_ (f_b X) k) (u_at (f_u X) k)) = 0).
  { apply dx_0. intros k. unfold advection. rewrite (rsum_0 d); [ring|]. intros i _. rewrite (proj1 (HX k i 0%nat)). ring. }
  assert (MT : euler_moist G d P ts X T = 0).
  { unfold euler_moist. apply dx_0. intros k. rewrite (v_div_zero d _ (HX k)). ring. }
  assert (OT : forall om, euler_coriolis G d om X T = 0).
  { intros om. unfold euler_coriolis. apply dx_0. intros k. unfold vdot. apply rsum_0. intros i _. unfold cross_omega, cross3.
    rewrite !(proj1 (HX k _ 0%nat)). destruct i as [|[|i]]; ring. }
  assert (ST : forall mu, euler_sponge G d kvec mu X T = 0).
  { intros mu. unfold euler_sponge. apply dx_0. intros k. assert (Z : vdot d (v_val (u_at (f_u X) k)) (kvec k) = 0).
    { unfold vdot. apply rsum_0. intros i _. rewrite (proj1 (HX k i 0%nat)). ring. } rewrite Z. ring. }
  set (base := ([mass_term_u G d; mass_term_s G "rho" f_D; mass_term_s G "theta" f_b] ++ ru ++ [continuity_term G d "rho" f_D lm] ++
                [advection_term G d "theta" f_b lm] ++ [] ++
                [euler_term ["pressure_gradient"%string] "u" (euler_pressure G d vertical P ts)] ++ [euler_term ["gravity"%string] "u" (euler_gravity G d kvec g)] ++
                (match ts with [] => [] | _ => [euler_term [] "theta" (euler_moist G d P ts)] end) ++
                opt_list (fun Om => euler_term ["coriolis"%string] "u" (euler_coriolis G d Om)) Om)%list) in *.
  assert (Z : spatial base X T = 0).
  { unfold base. rewrite !spatial_app, Hu by exact HX.
    assert (M : spatial (match ts with [] => [] | _ => [euler_term [] "theta" (euler_moist G d P ts)] end) X T = 0).
    { destruct ts; [reflexivity|]. cbn. rewrite MT. ring. }
    assert (O : spatial (opt_list (fun Om => euler_term ["coriolis"%string] "u" (euler_coriolis G d Om)) Om) X T = 0).
    { destruct Om; [|reflexivity]. cbn. rewrite OT. ring. }
    rewrite M, O. cbn. rewrite CT, AT. lra. }
  destruct sponge as [[o mu]|].
  - destruct (sponge_check o); [|discriminate].
    apply (f_equal (fun q => match q with Ok a => a | Err _ => [] end)) in Hr. cbv beta iota in Hr. subst r.
    rewrite spatial_app, Z. cbn. rewrite ST. ring.
  - apply (f_equal (fun q => match q with Ok a => a | Err _ => [] end)) in Hr. cbv beta iota in Hr. subst r. exact Z.
Qed.
Print Assumptions hydrostatic_rest_is_steady.

(** A two-layer isentropic column: theta = 300, Pi = 1 - z/10, tested with the hat function of the middle level. *)
Definition column : geometry := {| ncp := 2; cw := fun _ => 1; nfp := 1; fw := fun _ => 1; nbp := 2; bw := fun _ => 1 |}.
Definition z_cell (k : nat) : R := match k with 0%nat => 1/2 | _ => 3/2 end.
Definition Pi_z (z : R) : R := 1 - z / 10.
Definition rho_z (z : R) : R := rho_of default_params 300 (Pi_z z).
Definition column_state : fields :=
  let rest := {| u_at := fun _ => {| v_val := fun _ => 0; v_grad := fun _ _ => 0 |}; u_np := fun _ => 0; u_nm := fun _ => 0; u_nb := fun _ => 0 |} in
  {| f_u := rest; f_b := constant 300;
     f_D := {| sv := fun k => rho_z (z_cell k); sg := fun k _ => (-1/10) / dexner_drho default_params (rho_z (z_cell k)) 300;
               sp := fun _ => rho_z 1; sm := fun _ => rho_z 1; sb := fun b => rho_z (match b with 0%nat => 0 | _ => 2 end) |};
     f_q := constant 0 |}.
Definition hat : velocity_field :=
  {| u_at := fun k => {| v_val := fun _ => 1/2; v_grad := fun _ _ => match k with 0%nat => 1 | _ => -1 end |};
     u_np := fun _ => 1; u_nm := fun _ => -1; u_nb := fun _ => 0 |}.
Definition hat_test : fields := {| f_u := hat; f_b := constant 1; f_D := constant 1; f_q := constant 0 |}.
Lemma rho_z_pos z : z < 10 -> 0 < rho_z z.
Proof.
  intros H. unfold rho_z, rho_of. cbn [p_0 R_d default_params]. apply Rdiv_lt_0_compat; [|lra].
  apply Rmult_lt_0_compat; [lra|apply Rpower_pos].
Qed.
Lemma exner_rho_z z : z < 10 -> exner_pressure default_params (rho_z z) 300 = Pi_z z.
Proof. intros H. apply exner_of_rho; [exact default_admissible|lra|unfold Pi_z; lra]. Qed.
Lemma exner_column_grad k i : sg (exner_field default_params column_state) k i = -1/10.
Proof.
  cbn [exner_field column_state sg sv f_D f_b constant]. rewrite Rmult_0_r, Rplus_0_r.
  assert (Hz : z_cell k < 10) by (unfold z_cell; destruct k; lra).
  field. unfold dexner_drho. apply Rgt_not_eq. cbn [kappa default_params].
  apply Rdiv_lt_0_compat; [|apply rho_z_pos; exact Hz]. apply Rmult_lt_0_compat; [lra|apply Rpower_pos].
Qed.
Example balanced_column :
  let g := 1004.5 * 30 in let P := default_params in let X := column_state in let T := hat_test in
  let th := theta_v [] X in let Pi := exner_field P X in
  at_rest (f_u X) /\ (forall k i, cp P * sv th k * sg Pi k i = - g * 1) /\ continuous_field Pi /\
  column_continuous (fun _ => false) th (f_u T) /\ no_outflow (f_u T) /\ divergence_theorem column 1 (product th Pi) (f_u T) /\
  euler_gravity column 1 (fun _ _ => 1) g X T <> 0.
Proof.
  intros g P X T th Pi.
  split; [intros k i j; split; reflexivity|].
  split. { intros k i. unfold Pi, X. rewrite exner_column_grad. unfold th, X, P, theta_v, quotient1, column_state, g. cbn [sv f_b total_mr fold_right constant cp default_params]. field. }
  split; [intros f; reflexivity|]. split. { intros f _. cbn. split; [reflexivity|ring]. } split; [intros b; reflexivity|]. split.
  - unfold divergence_theorem, product, column, dx, dS_, ds_. cbn [ncp cw nfp fw nbp bw rsum sv sg sp sm sb]. unfold vdot, v_div. cbn [rsum].
    unfold Pi, X. rewrite !exner_column_grad. unfold th, X, theta_v, quotient1, T, hat_test, hat. cbn [sv sg sp sm sb f_b f_u f_D column_state total_mr fold_right constant u_at u_np u_nm u_nb v_val v_grad exner_field z_cell].
    unfold P. rewrite !exner_rho_z by lra. unfold Pi_z. field.
  - unfold euler_gravity, column, dx, g. cbn. lra.
Qed.

(** Rotation does no work. *)
Theorem coriolis_no_work : forall G Om X, euler_coriolis G 3 Om X X = 0.
Proof. intros G Om X. unfold euler_coriolis. apply dx_0. intros k. unfold vdot, cross_omega, cross3. cbn. ring. Qed.

(** ** C97.  The sponge layer *)
(** z is a height above the sponge level z_level of a domain of depth H *)
Theorem sponge_damping_profile :
  forall o z, sponge_check o = Ok tt -> 0 <= sp_mubar o ->
  0 <= sponge_mu o z <= sp_mubar o /\ (z <= sp_z_level o -> sponge_mu o z = 0) /\ sponge_mu o (sp_H o) = sp_mubar o /\
  (forall z', z <= z' <= sp_H o -> sponge_mu o z <= sponge_mu o z').
Proof.
  intros o z H Hm. unfold sponge_check in H. destruct (Rlt_dec (sp_z_level o) (sp_H o)) as [HL|]; [|discriminate]. clear H.
  assert (B : forall z, 0 <= sponge_mu o z <= sp_mubar o).
  { intros y. unfold sponge_mu. destruct (Rle_dec y (sp_z_level o)); [lra|]. set (s := sin _).
    assert (0 <= s ^ 2 <= 1). { split; [apply pow2_ge_0|]. unfold s. match goal with |- sin ?a ^ 2 <= 1 => pose proof (SIN_bound a) as Hs; set (v := sin a) in * end. assert (v * v <= 1) by nra. lra. }
    nra. }
  split; [apply B|]. split; [intros Hz; unfold sponge_mu; destruct (Rle_dec z (sp_z_level o)); [reflexivity|lra]|]. split.
  - unfold sponge_mu. destruct (Rle_dec (sp_H o) (sp_z_level o)); [lra|].
    replace (PI / 2 * (sp_H o - sp_z_level o) / (sp_H o - sp_z_level o)) with (PI / 2) by (field; lra). rewrite sin_PI2. ring.
  - intros z' Hz. unfold sponge_mu at 1. destruct (Rle_dec z (sp_z_level o)); [apply B|].
    unfold sponge_mu. destruct (Rle_dec z' (sp_z_level o)); [lra|].
    apply Rmult_le_compat_l; [exact Hm|]. pose proof PI_RGT_0 as HP.
    assert (A : forall y, sp_z_level o < y <= sp_H o -> 0 < PI / 2 * (y - sp_z_level o) / (sp_H o - sp_z_level o) <= PI / 2).
    { intros y Hy. split. { apply Rdiv_lt_0_compat; [|lra]. apply Rmult_lt_0_compat; lra. }
      apply (Rmult_le_reg_r (sp_H o - sp_z_level o)); [lra|]. unfold Rdiv at 1. rewrite Rmult_assoc, Rinv_l, Rmult_1_r by lra. apply Rmult_le_compat_l; lra. }
    pose proof (A z ltac:(lra)) as A1. pose proof (A z' ltac:(lra)) as A2.
    assert (Hs : sin (PI / 2 * (z - sp_z_level o) / (sp_H o - sp_z_level o)) <= sin (PI / 2 * (z' - sp_z_level o) / (sp_H o - sp_z_level o))).
    { apply sin_incr_1; try lra. unfold Rdiv. apply Rmult_le_compat_r; [left; apply Rinv_0_lt_compat; lra|]. apply Rmult_le_compat_l; lra. }
    assert (0 <= sin (PI / 2 * (z - sp_z_level o) / (sp_H o - sp_z_level o))) by (apply sin_ge_0; lra).
    apply pow_incr. lra.
Qed.
(** a negative coefficient is impossible at the points where the profile is evaluated, so the sponge only removes
    vertical momentum: its term tested with u is nonnegative *)
Theorem sponge_dissipates :
  forall G d kvec mu X, (forall k, (k < ncp G)%nat -> 0 <= cw G k) -> (forall k, 0 <= mu k) -> 0 <= euler_sponge G d kvec mu X X.
Proof. intros G d kvec mu X Hw Hm. unfold euler_sponge. apply perp_pos; [exact Hw|]. intros k. specialize (Hm k). set (a := vdot _ _ _). nra. Qed.
Theorem sponge_level_checked :
  forall G d circ kvec vertical P opt lm g ts tr Om o mu, valid_option opt ->
  (compressible_euler G d circ kvec vertical P opt lm g ts tr Om (Some (o, mu)) = Err AssertionError <-> sp_H o <= sp_z_level o).
Proof.
  intros G d circ kvec vertical P opt lm g ts tr Om o mu V. unfold compressible_euler.
  assert (U : exists ru, u_transport G d circ opt lm = Ok ru) by (destruct V as [-> | [-> | ->]]; eexists; reflexivity).
  destruct U as [ru ->]. unfold sponge_check. destruct (Rlt_dec (sp_z_level o) (sp_H o)); split; intros; try discriminate; try lra; reflexivity.
Qed.
(** ... but the profile is first interpolated with quadratic polynomials.  In a cell that straddles the sponge level,
    two of its three nodes at or below it, the coefficient is negative between those: the sponge accelerates the
    flow there. *)
Theorem sponge_interpolant_negative_refuted :
  forall o x1 x2 x3, sponge_check o = Ok tt -> 0 < sp_mubar o -> x1 < x2 -> x2 <= sp_z_level o -> sp_z_level o < x3 -> x3 <= sp_H o ->
  forall x, x1 < x < x2 -> interpolate2 x1 x2 x3 (sponge_mu o) x < 0.
Proof.
  intros o x1 x2 x3 H Hm H12 H2 H3 HH x Hx. unfold sponge_check in H. destruct (Rlt_dec (sp_z_level o) (sp_H o)) as [HL|]; [|discriminate]. clear H.
  unfold interpolate2. assert (Z : forall y, y <= sp_z_level o -> sponge_mu o y = 0) by (intros y Hy; unfold sponge_mu; destruct (Rle_dec y (sp_z_level o)); [reflexivity|lra]).
  rewrite (Z x1), (Z x2) by lra. rewrite !Rmult_0_l, !Rplus_0_l.
  assert (Pos : 0 < sponge_mu o x3).
  { unfold sponge_mu. destruct (Rle_dec x3 (sp_z_level o)); [lra|]. apply Rmult_lt_0_compat; [exact Hm|]. apply pow_lt. pose proof PI_RGT_0 as HP.
    assert (0 < PI / 2 * (x3 - sp_z_level o) / (sp_H o - sp_z_level o)) by (apply Rdiv_lt_0_compat; [apply Rmult_lt_0_compat; lra|lra]).
    assert (PI / 2 * (x3 - sp_z_level o) / (sp_H o - sp_z_level o) <= PI / 2).
    { apply (Rmult_le_reg_r (sp_H o - sp_z_level o)); [lra|]. unfold Rdiv at 1. rewrite Rmult_assoc, Rinv_l, Rmult_1_r by lra. apply Rmult_le_compat_l; lra. }
    apply sin_gt_0; lra. }
  assert (N : (x - x1) * (x - x2) / ((x3 - x1) * (x3 - x2)) < 0).
  { assert (0 < (x - x1) * (x2 - x) / ((x3 - x1) * (x3 - x2))) by (apply Rdiv_lt_0_compat; apply Rmult_lt_0_compat; lra).
    replace ((x - x1) * (x - x2) / ((x3 - x1) * (x3 - x2))) with (- ((x - x1) * (x2 - x) / ((x3 - x1) * (x3 - x2)))) by (field; split; lra). lra. }
  nra.
Qed.
(** On the sphere z is not the height: the model top is not damped at the equator, and the surface at the north
    pole can be damped as strongly as the model top is meant to be. *)
Definition height (radius : R) (xyz : nat -> R) : R := sqrt (xyz 0%nat ^ 2 + xyz 1%nat ^ 2 + xyz 2%nat ^ 2) - radius.
Lemma sin_odd m : sin (PI / 2 * (2 * INR m + 1)) ^ 2 = 1.
Proof.
  induction m as [|m IH].
  - cbn [INR]. replace (PI / 2 * (2 * 0 + 1)) with (PI / 2) by ring. rewrite sin_PI2. ring.
  - rewrite S_INR. replace (PI / 2 * (2 * (INR m + 1) + 1)) with (PI / 2 * (2 * INR m + 1) + PI) by field. rewrite neg_sin. assert (Sq : forall v : R, (- v) ^ 2 = v ^ 2) by (intros; ring). rewrite Sq. exact IH.
Qed.
Theorem sponge_on_sphere_refuted :
  forall o, sponge_check o = Ok tt -> 0 < sp_z_level o ->
  (forall radius, 0 < radius -> exists top, height radius top = sp_H o /\ sponge_mu o (top 2%nat) = 0) /\
  (forall m, let radius := sp_z_level o + (2 * INR m + 1) * (sp_H o - sp_z_level o) in
     exists surface, height radius surface = 0 /\ sponge_mu o (surface 2%nat) = sp_mubar o).
Proof.
  intros o H Hz. unfold sponge_check in H. destruct (Rlt_dec (sp_z_level o) (sp_H o)) as [HL|]; [|discriminate]. clear H. split.
  - intros radius Hr. exists (fun i => match i with 0%nat => radius + sp_H o | _ => 0 end). split.
    + unfold height. replace ((radius + sp_H o) ^ 2 + 0 ^ 2 + 0 ^ 2) with ((radius + sp_H o) ^ 2) by ring. rewrite sqrt_pow2; lra.
    + unfold sponge_mu. destruct (Rle_dec 0 (sp_z_level o)); [reflexivity|lra].
  - intros m radius. assert (0 <= INR m) by apply pos_INR. assert (Hr : sp_z_level o < radius).
    { unfold radius. assert (0 < (2 * INR m + 1) * (sp_H o - sp_z_level o)) by (apply Rmult_lt_0_compat; lra). lra. }
    exists (fun i => match i with 2%nat => radius | _ => 0 end). split.
    + unfold height. replace (0 ^ 2 + 0 ^ 2 + radius ^ 2) with (radius ^ 2) by ring. rewrite sqrt_pow2; lra.
    + unfold sponge_mu. destruct (Rle_dec radius (sp_z_level o)); [lra|].
      replace (PI / 2 * (radius - sp_z_level o) / (sp_H o - sp_z_level o)) with (PI / 2 * (2 * INR m + 1)) by (unfold radius; field; lra).
      rewrite sin_odd. ring.
Qed.

(** ** C98.  The hydrostatic equations *)
Definition unit_vertical (d : nat) (kvec : nat -> nat -> R) : Prop := forall k, vdot d (kvec k) (kvec k) = 1.
(** X with a vertical velocity s k added *)
Definition add_vertical (kvec : nat -> nat -> R) (s : nat -> R) (X : fields) : fields :=
  {| f_u := {| u_at := fun k => {| v_val := fun i => v_val (u_at (f_u X) k) i + s k * kvec k i; v_grad := v_grad (u_at (f_u X) k) |};
               u_np := u_np (f_u X); u_nm := u_nm (f_u X); u_nb := u_nb (f_u X) |}; f_D := f_D X; f_b := f_b X; f_q := f_q X |}.
Lemma vdot_comm d a b : vdot d a b = vdot d b a.
Proof. unfold vdot. apply rsum_ext. intros. ring. Qed.
Lemma vdot_add_scal d a b c s : vdot d (fun i => a i + s * b i) c = vdot d a c + s * vdot d b c.
Proof. unfold vdot. rewrite <- rsum_scal, <- rsum_add. apply rsum_ext. intros. ring. Qed.
Lemma u_transport_no_mass G d circ opt lm ru : u_transport G d circ opt lm = Ok ru -> forall t, In t ru -> has_lab "time_derivative" t = false.
Proof.
  unfold u_transport. intros H t Ht.
  destruct (String.eqb opt "vector_invariant_form"); [|destruct (String.eqb opt "circulation_form"); [|destruct (String.eqb opt "vector_advection_form"); [|discriminate]]];
    injection H as <-; cbn in Ht; repeat (destruct Ht as [<-|Ht]; [reflexivity|]); destruct Ht.
Qed.
Lemma mass_none r X T : (forall t, In t r -> has_lab "time_derivative" t = false) -> mass r X T = 0.
Proof. induction r as [|t r IH]; intros H; [reflexivity|]. rewrite mass_cons, (H t (or_introl eq_refl)), IH by (intros; apply H; right; assumption). ring. Qed.
Lemma compressible_mass G d circ kvec vertical P opt lm g ts tr Om sponge r :
  (forall t, In t tr -> has_lab "time_derivative" t = false) ->
  compressible_euler G d circ kvec vertical P opt lm g ts tr Om sponge = Ok r ->
  exists rest, r = ([mass_term_u G d; mass_term_s G "rho" f_D; mass_term_s G "theta" f_b] ++ rest)%list /\
               (forall t, In t rest -> has_lab "time_derivative" t = false).
Proof.
  intros Htr. unfold compressible_euler. destruct (u_transport _ _ _ _ _) as [ru|] eqn:E; [|discriminate].
  pose proof (u_transport_no_mass _ _ _ _ _ _ E) as Hu. intros Hr.
  set (rest := (ru ++ [continuity_term G d "rho" f_D lm] ++ [advection_term G d "theta" f_b lm] ++ tr ++
                [euler_term ["pressure_gradient"%string] "u" (euler_pressure G d vertical P ts)] ++ [euler_term ["gravity"%string] "u" (euler_gravity G d kvec g)] ++
                (match ts with [] => [] | _ => [euler_term [] "theta" (euler_moist G d P ts)] end) ++
                opt_list (fun Om => euler_term ["coriolis"%string] "u" (euler_coriolis G d Om)) Om)%list) in *.
  assert (Hrest : forall t, In t rest -> has_lab "time_derivative" t = false).
  { intros t Ht. unfold rest in Ht. repeat (apply in_app_or in Ht; destruct Ht as [Ht|Ht]); auto.
    all: try (cbn in Ht; destruct Ht as [<-|[]]; reflexivity).
    - destruct ts; cbn in Ht; [destruct Ht|destruct Ht as [<-|[]]; reflexivity].
    - destruct Om; cbn in Ht; [destruct Ht as [<-|[]]; reflexivity|destruct Ht]. }
  destruct sponge as [[o mu]|].
  - destruct (sponge_check o); [|discriminate]. apply (f_equal (fun q => match q with Ok a => a | Err _ => [] end)) in Hr. cbv beta iota in Hr.
    exists (rest ++ [euler_term ["sponge"%string] "u" (euler_sponge G d kvec mu)])%list. split; [rewrite <- Hr; unfold rest; rewrite <- !app_assoc; reflexivity|].
    intros t Ht. apply in_app_or in Ht. destruct Ht as [Ht|[<-|[]]]; [auto|reflexivity].
  - apply (f_equal (fun q => match q with Ok a => a | Err _ => [] end)) in Hr. cbv beta iota in Hr. exists rest. split; [symmetry; exact Hr|exact Hrest].
Qed.
Lemma spatial_map_nonmass (h : eqterm -> eqterm) r X T : (forall t, has_lab "time_derivative" t = true -> has_lab "time_derivative" (h t) = true) ->
  spatial (List.map (fun t => if has_lab "time_derivative" t then h t else t) r) X T = spatial r X T.
Proof.
  intros H. induction r as [|t r IH]; [reflexivity|]. cbn [List.map]. rewrite !spatial_cons, IH. f_equal.
  destruct (has_lab "time_derivative" t) eqn:E; [rewrite (H t E); reflexivity|rewrite E; reflexivity].
Qed.

(** Only the horizontal velocity varies in time: the time derivative terms are those of the non-hydrostatic equations
    without the vertical velocity, they do not depend on it at all, and the other terms are unchanged except for the
    term labelled hydrostatic, which restores exactly what is missing. *)
Theorem hydrostatic_time_derivative :
  forall G d circ kvec vertical P opt lm g ts tr Om sponge r rh,
  (forall t, In t tr -> has_lab "time_derivative" t = false) ->
  compressible_euler G d circ kvec vertical P opt lm g ts tr Om sponge = Ok r ->
  hydrostatic_euler G d circ kvec vertical P opt lm g ts tr Om sponge = Ok rh ->
  forall X T,
  let vert := dx G (fun k => vdot d (v_val (u_at (f_u X) k)) (kvec k) * vdot d (kvec k) (v_val (u_at (f_u T) k))) in
  mass rh X T = mass r X T - vert /\ spatial rh X T = spatial r X T - vert /\
  (unit_vertical d kvec -> forall s, mass rh (add_vertical kvec s X) T = mass rh X T).
Proof.
  intros G d circ kvec vertical P opt lm g ts tr Om sponge r rh Htr Hr Hh.
  destruct (compressible_mass _ _ _ _ _ _ _ _ _ _ _ _ _ _ Htr Hr) as (rest & Er & Hrest).
  unfold hydrostatic_euler in Hh. rewrite Hr in Hh. apply (f_equal (fun q => match q with Ok a => a | Err _ => [] end)) in Hh. cbv beta iota in Hh.
  assert (Mh : forall X T, mass rh X T = mass_u G d (horizontal d kvec X) T + mass_s G f_D X T + mass_s G f_b X T).
  { intros X T. rewrite <- Hh, mass_app. rewrite Er, map_app, mass_app.
    assert (Z : List.map (fun t => if has_lab "time_derivative" t then hydrostatic_projection d kvec t else t) rest = rest).
    { clear Er. induction rest as [|t rest IH]; [reflexivity|]. cbn [List.map]. rewrite (Hrest t (or_introl eq_refl)), IH by (intros; apply Hrest; right; assumption). reflexivity. }
    rewrite Z, (mass_none rest) by exact Hrest. cbn. unfold mass_s, horizontal. cbn [f_D f_b]. ring. }
  assert (MH : forall X T, mass_u G d (horizontal d kvec X) T = mass_u G d X T - dx G (fun k => vdot d (v_val (u_at (f_u X) k)) (kvec k) * vdot d (kvec k) (v_val (u_at (f_u T) k)))).
  { intros X T. unfold mass_u. rewrite <- (Rmult_1_l (dx G (fun k => vdot d (v_val (u_at (f_u X) k)) (kvec k) * _))). unfold Rminus. rewrite Ropp_mult_distr_l, <- dx_scale, <- dx_plus.
    apply dx_ext. intros k. unfold horizontal. cbn [f_u u_at v_val].
    rewrite (vdot_ext d _ (fun i => v_val (u_at (f_u X) k) i + (- vdot d (v_val (u_at (f_u X) k)) (kvec k)) * kvec k i) _ (v_val (u_at (f_u T) k))) by (intros; ring).
    rewrite vdot_add_scal. ring. }
  intros X T vert. split; [|split].
  - rewrite Mh, MH. rewrite Er, mass_app, (mass_none rest) by exact Hrest. cbn. fold vert. ring.
  - rewrite <- Hh, spatial_app, spatial_map_nonmass by (intros t Ht; exact Ht). rewrite spatial_cons, spatial_nil. cbn [euler_term term has_lab t_labels t_form mem existsb]. cbn [String.eqb Ascii.eqb Bool.eqb orb]. unfold hydrostatic_form, vert.
    rewrite (dx_ext G (fun k => vdot d (kvec k) _ * _) (fun k => vdot d (v_val (u_at (f_u X) k)) (kvec k) * vdot d (kvec k) (v_val (u_at (f_u T) k)))); [ring|].
    intros k. rewrite (vdot_comm d (kvec k) (v_val (u_at (f_u X) k))). ring.
  - intros Hk s. rewrite !Mh. apply f_equal2; [apply f_equal2|]; try reflexivity.
    unfold mass_u. apply dx_ext. intros k. unfold horizontal, add_vertical. cbn [f_u u_at v_val].
    rewrite (vdot_ext d _ (fun i => v_val (u_at (f_u X) k) i - vdot d (v_val (u_at (f_u X) k)) (kvec k) * kvec k i) _ (v_val (u_at (f_u T) k))); [reflexivity| |reflexivity].
    intros i. rewrite vdot_add_scal, (Hk k). ring.
Qed.
Print Assumptions hydrostatic_time_derivative.
(** ... so that the operator inverted to evaluate the forcing of these equations (Siqn.v, forcing_lhs: the time derivative
    terms) is singular: any vertical velocity can be added to a solution. *)
Theorem hydrostatic_forcing_not_unique_refuted :
  forall G d circ kvec vertical P opt lm g ts tr Om sponge rh,
  (forall t, In t tr -> has_lab "time_derivative" t = false) -> unit_vertical d kvec ->
  hydrostatic_euler G d circ kvec vertical P opt lm g ts tr Om sponge = Ok rh ->
  forall (L : fields -> R) XF, (forall T, mass rh XF T = L T) -> forall s T, mass rh (add_vertical kvec s XF) T = L T.
Proof.
  intros G d circ kvec vertical P opt lm g ts tr Om sponge rh Htr Hk Hh L XF HX s T. pose proof Hh as Hh'.
  unfold hydrostatic_euler in Hh'. destruct (compressible_euler _ _ _ _ _ _ _ _ _ _ _ _ _) as [r|] eqn:Hr; [|discriminate].
  destruct (hydrostatic_time_derivative _ _ _ _ _ _ _ _ _ _ _ _ _ _ _ Htr Hr Hh XF T) as (_ & _ & E). rewrite E by exact Hk. apply HX.
Qed.
Example hydrostatic_case :
  exists rh, hydrostatic_euler column 1 (fun _ _ _ _ => 0) (fun _ _ => 1) (fun _ => false) default_params "vector_advection_form" true 9.81 [] [] None None = Ok rh /\
  unit_vertical 1 (fun _ _ => 1) /\ circ_vanishes (fun _ _ _ _ => 0).
Proof. eexists. split; [reflexivity|]. split; [intros k; unfold vdot; cbn; ring|intros k w a b _; reflexivity]. Qed.
