(** C122: the wet-bulb temperature diagnostic. *)
From Coq Require Import Reals Lra Lia List Ranalysis5.
From Verif Require Import Base Vec Thermo ThermoProps Diagnostics DiagnosticsProps DiagPoint DewpointProps.
Open Scope R_scope.

(** Iterations near a fixed point *)
Lemma repelled f x l : f x = x -> derivable_pt_lim f x l -> 1 < Rabs l -> exists d, 0 < d /\ forall y, 0 < Rabs (y - x) < d -> Rabs (y - x) < Rabs (f y - x).
Proof.
  intros Fx D L. destruct (D (Rabs l - 1) ltac:(lra)) as [d Hd]. exists d. split; [apply cond_pos|]. intros y [H0 H1].
  assert (N : y - x <> 0) by (intros E; rewrite E, Rabs_R0 in H0; lra). specialize (Hd _ N H1). replace (x + (y - x)) with y in Hd by ring. rewrite Fx in Hd.
  pose proof (Rabs_triang_inv l ((f y - x) / (y - x))) as T. rewrite (Rabs_minus_sym l) in T.
  assert (Q : 1 < Rabs ((f y - x) / (y - x))) by lra. unfold Rdiv in Q. rewrite Rabs_mult, Rabs_inv in Q.
  apply (Rmult_lt_compat_r _ _ _ H0) in Q. rewrite Rmult_assoc, Rinv_l in Q by lra. lra.
Qed.
Lemma attracted f x l q : f x = x -> derivable_pt_lim f x l -> Rabs l < q -> q < 1 -> exists d, 0 < d /\ forall y n, Rabs (y - x) < d -> Rabs (niter n f y - x) <= q ^ n * Rabs (y - x).
Proof.
  intros Fx D L Q1. destruct (D (q - Rabs l) ltac:(lra)) as [d Hd]. exists d. split; [apply cond_pos|].
  assert (Q0 : 0 <= q) by (pose proof (Rabs_pos l); lra).
  assert (S : forall y, Rabs (y - x) < d -> Rabs (f y - x) <= q * Rabs (y - x)).
  { intros y H1. destruct (Req_dec (y - x) 0) as [E|N].
    - replace y with x by lra. rewrite Fx. replace (x - x) with 0 by ring. rewrite Rabs_R0. lra.
    - specialize (Hd _ N H1). replace (x + (y - x)) with y in Hd by ring. rewrite Fx in Hd. pose proof (Rabs_pos_lt _ N) as H0.
      pose proof (Rabs_triang_inv ((f y - x) / (y - x)) l) as T. assert (Q : Rabs ((f y - x) / (y - x)) <= q) by lra.
      unfold Rdiv in Q. rewrite Rabs_mult, Rabs_inv in Q. apply (Rmult_le_compat_r (Rabs (y - x))) in Q; [|lra]. rewrite Rmult_assoc, Rinv_l in Q by lra. lra. }
  intros y n. revert y. induction n as [|n IH]; intros y H1; cbn [niter pow]; [lra|]. specialize (S y H1).
  assert (H2 : Rabs (f y - x) < d) by (pose proof (Rabs_pos (y - x)); nra). specialize (IH _ H2). eapply Rle_trans; [exact IH|].
  replace (q * q ^ n * Rabs (y - x)) with (q ^ n * (q * Rabs (y - x))) by ring. apply Rmult_le_compat_l; [apply pow_le; exact Q0|exact S].
Qed.

Section WetBulb.
Variable P : cparams.
Hypothesis A : saturation_curve P.
(** heat capacities are positive, and evaporation costs energy: c_pl > c_pv *)
Record heat_capacities : Prop := { hc_cv : 0 < cv P; hc_cvv : 0 < c_vv P; hc_a : 0 < wb_a P }.
Hypothesis H : heat_capacities.
Lemma wb_linear T : wb_a P * T + wb_b P = R_v P * T - Lv P T. Proof. unfold wb_a, wb_b, Lv. ring. Qed.

(** The temperature of the air when the vapour content has been changed to r *)
Definition evaporated (s : air) (r : R) : R :=
  - wb_b P / wb_a P + (wb_a P * temperature_at P s + wb_b P) / wb_a P * Rpower ((c_vv P * r + cv P) / (c_vv P * a_rv s + cv P)) (wb_a P / c_vv P).
Lemma evaporated_start s : 0 <= a_rv s -> evaporated s (a_rv s) = temperature_at P s.
Proof.
  intros Hr. destruct H as [H1 H2 H3]. unfold evaporated. assert (0 <= c_vv P * a_rv s) by (apply Rmult_le_pos; lra).
  replace ((c_vv P * a_rv s + cv P) / (c_vv P * a_rv s + cv P)) with 1 by (field; lra). unfold Rpower. rewrite ln_1, Rmult_0_r, exp_0. field. lra.
Qed.
Lemma evaporated_deriv s r : 0 <= a_rv s -> 0 <= r -> derivable_pt_lim (evaporated s) r ((R_v P * evaporated s r - Lv P (evaporated s r)) / (cv P + c_vv P * r)).
Proof.
  intros Hr0 Hr. destruct H as [H1 H2 H3]. assert (Q0 : 0 < c_vv P * a_rv s + cv P) by (assert (0 <= c_vv P * a_rv s) by (apply Rmult_le_pos; lra); lra).
  assert (Q1 : 0 < c_vv P * r + cv P) by (assert (0 <= c_vv P * r) by (apply Rmult_le_pos; lra); lra).
  set (q := c_vv P * a_rv s + cv P) in *. set (al := wb_a P / c_vv P). set (C := (wb_a P * temperature_at P s + wb_b P) / wb_a P).
  assert (G : derivable_pt_lim (fun r => c_vv P / q * r + cv P / q) r (c_vv P / q)) by apply affine_deriv.
  set (g := fun r => c_vv P / q * r + cv P / q) in *. assert (Eg : forall r, g r = (c_vv P * r + cv P) / q) by (intros; unfold g; field; lra).
  assert (Gp : 0 < g r) by (rewrite Eg; apply Rdiv_lt_0_compat; assumption).
  pose proof (derivable_pt_lim_comp g (fun x => Rpower x al) r _ _ G (derivable_pt_lim_power (g r) al Gp)) as D1.
  pose proof (derivable_pt_lim_scal _ C r _ D1) as D2. pose proof (derivable_pt_lim_plus (fun _ => - wb_b P / wb_a P) _ r 0 _ (derivable_pt_lim_const _ r) D2) as D3.
  rewrite <- wb_linear. unfold evaporated. fold q C al.
  replace ((wb_a P * (- wb_b P / wb_a P + C * Rpower ((c_vv P * r + cv P) / q) al) + wb_b P) / (cv P + c_vv P * r)) with (0 + C * (al * Rpower (g r) (al - 1) * (c_vv P / q))).
  - apply deriv_ext with (2 := D3). intros x. unfold plus_fct, mult_real_fct, comp. rewrite Eg. reflexivity.
  - rewrite <- Eg. replace (Rpower (g r) al) with (Rpower (g r) (al - 1) * g r).
    + rewrite Eg. unfold al. field. repeat split; lra.
    + rewrite <- (Rpower_1 (g r)) at 2 by exact Gp. rewrite <- Rpower_plus. f_equal. ring.
Qed.
(** What the expression means: the temperature after evaporation, or condensation, of water at constant volume until the air is saturated at
    the guessed temperature.  The derivative is that of a process in which the heat capacity of the air pays for the latent heat
    (L_v - R_v T: at constant volume), and the internal energy of air, vapour and a supply of l of liquid changes only by what the cooling
    liquid gives off. *)
Theorem wet_bulb_process : forall s r rho l, 0 <= a_rv s -> 0 <= r -> c_pv P - c_vv P = R_v P ->
  let T' := (R_v P * evaporated s r - Lv P (evaporated s r)) / (cv P + c_vv P * r) in
  (forall x, wet_bulb_expr P s x = evaporated s (r_sat P x (pressure_at P s))) /\ evaporated s (a_rv s) = temperature_at P s /\
  derivable_pt_lim (evaporated s) r T' /\
  derivable_pt_lim (fun r => internal_energy P rho (evaporated s r) r (l - r)) r (rho * ((l - r) * c_pl P) * T').
Proof.
  intros s r rho l Hr0 Hr Hc T'. split; [reflexivity|]. split; [apply evaporated_start; exact Hr0|]. pose proof (evaporated_deriv s r Hr0 Hr) as D. fold T' in D. split; [exact D|].
  set (E := evaporated s) in *. destruct H as [H1 H2 H3]. assert (Q1 : 0 < cv P + c_vv P * r) by (assert (0 <= c_vv P * r) by (apply Rmult_le_pos; lra); lra).
  pose proof (derivable_pt_lim_mult E (fun x => (c_vv P - c_pl P) * x + (cv P + l * c_pl P)) r _ _ D (affine_deriv _ _ r)) as D1.
  pose proof (derivable_pt_lim_plus _ (fun x => (L_v0 P + (c_pl P - c_pv P) * T_0 P) * x + - (l * (L_v0 P + (c_pl P - c_pv P) * T_0 P))) r _ _ D1 (affine_deriv _ _ r)) as D2.
  pose proof (derivable_pt_lim_scal _ rho r _ D2) as D3.
  assert (V : rho * ((l - r) * c_pl P) * T' = rho * (T' * ((c_vv P - c_pl P) * r + (cv P + l * c_pl P)) + E r * (c_vv P - c_pl P) + (L_v0 P + (c_pl P - c_pv P) * T_0 P))).
  { assert (W : T' * (cv P + c_vv P * r) = R_v P * E r - Lv P (E r)) by (unfold T'; field; lra). unfold Lv in W. rewrite Rmult_assoc. f_equal. rewrite <- Hc in W. lra. }
  rewrite V. apply deriv_ext with (2 := D3). intros x. unfold mult_real_fct, plus_fct, mult_fct, internal_energy, Lv. ring.
Qed.

(** ** Between dewpoint and temperature *)
Lemma evaporated_decr s r1 r2 : 0 <= a_rv s -> R_v P * temperature_at P s < Lv P (temperature_at P s) -> 0 <= r1 -> r1 < r2 -> evaporated s r2 < evaporated s r1.
Proof.
  intros Hr HL H0 Hlt. destruct H as [H1 H2 H3]. unfold evaporated. rewrite wb_linear. set (q := c_vv P * a_rv s + cv P). assert (Q0 : 0 < q) by (unfold q; assert (0 <= c_vv P * a_rv s) by (apply Rmult_le_pos; lra); lra).
  assert (L1 : 0 <= c_vv P * r1) by (apply Rmult_le_pos; lra). assert (L2 : c_vv P * r1 < c_vv P * r2) by (apply Rmult_lt_compat_l; lra).
  assert (L : Rpower ((c_vv P * r1 + cv P) / q) (wb_a P / c_vv P) < Rpower ((c_vv P * r2 + cv P) / q) (wb_a P / c_vv P)).
  { unfold Rpower. apply exp_increasing. apply Rmult_lt_compat_l; [apply Rdiv_lt_0_compat; assumption|]. apply ln_increasing; [apply Rdiv_lt_0_compat; lra|]. unfold Rdiv. apply Rmult_lt_compat_r; [apply Rinv_0_lt_compat; exact Q0|lra]. }
  set (u := Rpower ((c_vv P * r1 + cv P) / q) _) in *. set (v := Rpower ((c_vv P * r2 + cv P) / q) _) in *.
  assert (N : (R_v P * temperature_at P s - Lv P (temperature_at P s)) / wb_a P < 0) by (unfold Rdiv; apply Rmult_lt_0_neg_l || (assert (0 < / wb_a P) by (apply Rinv_0_lt_compat; exact H3); nra)).
  nra.
Qed.
Definition rs_deriv_value (x p : R) : R := R_d P / R_v P * p * e_sat P x * slope_k P / ((p - e_sat P x) ^ 2 * (x - w_sat3 P) ^ 2).
Lemma es_deriv x : w_sat3 P < x -> derivable_pt_lim (e_sat P) x (e_sat P x * slope_k P / (x - w_sat3 P) ^ 2).
Proof.
  intros Hx. set (g := fun T => - w_sat2 P * (T - T_0 P) / (T - w_sat3 P)).
  pose proof (affine_deriv (- w_sat2 P) (w_sat2 P * T_0 P) x) as D1. pose proof (affine_deriv 1 (- w_sat3 P) x) as D2.
  assert (N : 1 * x + - w_sat3 P <> 0) by lra. pose proof (derivable_pt_lim_div _ _ x _ _ D1 D2 N) as D3.
  pose proof (derivable_pt_lim_comp _ exp x _ _ D3 (derivable_pt_lim_exp _)) as D4. pose proof (derivable_pt_lim_scal _ (w_sat4 P) x _ D4) as D5.
  match type of D4 with derivable_pt_lim (comp exp ?h) _ _ => set (hh := h) in * end.
  assert (Eg : forall y, hh y = g y) by (intros y; unfold hh, div_fct, g; replace (1 * y + - w_sat3 P) with (y - w_sat3 P) by ring; replace (- w_sat2 P * y + w_sat2 P * T_0 P) with (- w_sat2 P * (y - T_0 P)) by ring; reflexivity).
  match type of D5 with derivable_pt_lim _ _ ?v => replace (e_sat P x * slope_k P / (x - w_sat3 P) ^ 2) with v end.
  - apply deriv_ext with (2 := D5). intros y. unfold mult_real_fct, comp. rewrite Eg. reflexivity.
  - rewrite Eg. unfold e_sat, g, slope_k, Rsqr. field. lra.
Qed.
Lemma rs_deriv x p : w_sat3 P < x -> e_sat P x < p -> derivable_pt_lim (fun x => r_sat P x p) x (rs_deriv_value x p).
Proof.
  intros Hx Hp. pose proof (es_deriv x Hx) as D. set (e' := e_sat P x * slope_k P / (x - w_sat3 P) ^ 2) in *. pose proof (ad_Rv P (sc_ad P A)) as RV.
  pose proof (derivable_pt_lim_scal _ (R_d P / R_v P) x _ D) as D1. pose proof (derivable_pt_lim_minus (fun _ => p) (e_sat P) x 0 _ (derivable_pt_lim_const p x) D) as D2.
  assert (N : ((fun _ => p) - e_sat P)%F x <> 0) by (unfold minus_fct; lra). pose proof (derivable_pt_lim_div _ _ x _ _ D1 D2 N) as D3.
  match type of D3 with derivable_pt_lim _ _ ?v => replace (rs_deriv_value x p) with v end.
  - apply deriv_ext with (2 := D3). intros y. unfold div_fct, mult_real_fct, minus_fct, r_sat. f_equal. ring.
  - unfold rs_deriv_value, mult_real_fct, minus_fct, e', Rsqr. field. repeat split; lra.
Qed.
Lemma wb_expr_deriv s x : 0 <= a_rv s -> w_sat3 P < x -> e_sat P x < pressure_at P s ->
  derivable_pt_lim (wet_bulb_expr P s) x ((R_v P * wet_bulb_expr P s x - Lv P (wet_bulb_expr P s x)) / (cv P + c_vv P * r_sat P x (pressure_at P s)) * rs_deriv_value x (pressure_at P s)).
Proof.
  intros Hr Hx Hp. assert (R0 : 0 < r_sat P x (pressure_at P s)) by (apply r_sat_pos; [exact (sc_ad P A)|exact Hp]).
  exact (derivable_pt_lim_comp (fun x => r_sat P x (pressure_at P s)) (evaporated s) x _ _ (rs_deriv x _ Hx Hp) (evaporated_deriv s _ Hr (Rlt_le _ _ R0))).
Qed.
(** Moist air that is not saturated, in which evaporation costs energy, has exactly one wet-bulb temperature: a temperature x at which the air, if water
    evaporates until it is saturated at x, has temperature x.  It lies between the dewpoint and the temperature. *)
Definition is_wet_bulb (s : air) (x : R) : Prop := wet_bulb_expr P s x = x.
Theorem wet_bulb_exists_unique : forall s Td, let T := temperature_at P s in 0 <= a_rv s -> R_v P * T < Lv P T -> w_sat3 P < Td -> e_sat P T < pressure_at P s ->
  is_dewpoint P s Td -> Td < T ->
  exists x, is_wet_bulb s x /\ Td < x < T /\ (forall y, w_sat3 P < y -> e_sat P y < pressure_at P s -> is_wet_bulb s y -> y = x).
Proof.
  intros s Td T Hr HL H3 HeT (_ & Hed & Hrd) Hlt. set (p := pressure_at P s) in *. set (f := fun x => x - wet_bulb_expr P s x).
  assert (MON : forall x y, w_sat3 P < x -> x < y -> e_sat P y < p -> wet_bulb_expr P s y < wet_bulb_expr P s x).
  { intros x y Hx Hxy Hy. assert (Hx2 : e_sat P x < p) by (pose proof (es_incr P A x y Hx Hxy); lra).
    apply (evaporated_decr s (r_sat P x p) (r_sat P y p) Hr HL); [left; apply r_sat_pos; [exact (sc_ad P A)|exact Hx2]|]. apply rs_incr; assumption. }
  assert (Fd : wet_bulb_expr P s Td = T) by (change (evaporated s (r_sat P Td p) = T); rewrite Hrd; apply evaporated_start; exact Hr).
  assert (HT : wet_bulb_expr P s T < T) by (rewrite <- Fd at 2; apply MON; assumption).
  destruct (IVT_interv f Td T) as [x [Hx Fx]].
  - intros a Ha. assert (Ha3 : w_sat3 P < a) by lra. assert (Hea : e_sat P a < p) by (pose proof (es_incr_le P A a T Ha3 (proj2 Ha)); lra).
    apply derivable_continuous_pt. exists (1 - (R_v P * wet_bulb_expr P s a - Lv P (wet_bulb_expr P s a)) / (cv P + c_vv P * r_sat P a p) * rs_deriv_value a p).
    apply (derivable_pt_lim_minus (fun x => x) (wet_bulb_expr P s) a 1 _ (derivable_pt_lim_id a)). apply wb_expr_deriv; assumption.
  - exact Hlt.
  - unfold f. rewrite Fd. lra.
  - unfold f. lra.
  - assert (Wx : is_wet_bulb s x) by (unfold is_wet_bulb; unfold f in Fx; lra). exists x. split; [exact Wx|].
    assert (Hex : e_sat P x < p) by (pose proof (es_incr_le P A x T ltac:(lra) (proj2 Hx)); lra).
    split.
    + unfold is_wet_bulb in Wx. split.
      * destruct (proj1 Hx) as [L|E]; [exact L|]. rewrite <- E in Wx. lra.
      * destruct (proj2 Hx) as [L|E]; [exact L|]. rewrite E in Wx. lra.
    + intros y Hy Hey Wy. unfold is_wet_bulb in *. destruct (Rtotal_order y x) as [L|[E|L]]; [|exact E|]; exfalso.
      * pose proof (MON y x Hy L Hex). lra.
      * pose proof (MON x y ltac:(lra) L Hey). lra.
Qed.
(** Saturated air is at its wet-bulb temperature, and the diagnostic says so. *)
Definition wb_step gamma s (x : R) : R := (1 - gamma) * x + gamma * wet_bulb_expr P s x.
Lemma wet_bulb_pointwise {I} gamma n (s : I -> air) i : wet_bulb P gamma n s i = niter n (wb_step gamma (s i)) (temperature_at P (s i)).
Proof.
  unfold wet_bulb, iter_compute. set (f := iter_step gamma _).
  assert (Q : forall n (x : vec I), niter n f x i = niter n (wb_step gamma (s i)) (x i)). { clear n. induction n as [|n IH]; intros x; cbn [niter]; [reflexivity|]. rewrite IH. reflexivity. }
  apply Q.
Qed.
Theorem wet_bulb_saturated : forall I gamma n (s : I -> air) i, 0 <= a_rv (s i) -> a_rv (s i) = r_sat P (temperature_at P (s i)) (pressure_at P (s i)) ->
  wet_bulb P gamma n s i = temperature_at P (s i).
Proof.
  intros I gamma n s i Hr Hs. rewrite wet_bulb_pointwise. assert (E : wb_step gamma (s i) (temperature_at P (s i)) = temperature_at P (s i)).
  { unfold wb_step. change (wet_bulb_expr P (s i) (temperature_at P (s i))) with (evaporated (s i) (r_sat P (temperature_at P (s i)) (pressure_at P (s i)))). rewrite <- Hs, evaporated_start by exact Hr. ring. }
  induction n as [|n IH]; cbn [niter]; [reflexivity|]. rewrite E. exact IH.
Qed.
(** The iteration near the wet-bulb temperature: each multiplies the error by about 1 - gamma - gamma K, with K the product of the cooling per
    evaporated water and of the slope of the saturation curve.  It comes closer if that is less than one in absolute value, and moves away if it is more. *)
Definition wb_K (x p : R) : R := (Lv P x - R_v P * x) / (cv P + c_vv P * r_sat P x p) * rs_deriv_value x p.
Lemma wb_step_deriv gamma s x : 0 <= a_rv s -> w_sat3 P < x -> e_sat P x < pressure_at P s -> is_wet_bulb s x ->
  derivable_pt_lim (wb_step gamma s) x (1 - gamma - gamma * wb_K x (pressure_at P s)).
Proof.
  intros Hr H3 He Hx. pose proof (wb_expr_deriv s x Hr H3 He) as D. rewrite Hx in D. pose proof (derivable_pt_lim_scal _ gamma x _ D) as D1. pose proof (affine_deriv (1 - gamma) 0 x) as D0.
  pose proof (derivable_pt_lim_plus _ _ x _ _ D0 D1) as D2. match type of D2 with derivable_pt_lim _ _ ?v => replace (1 - gamma - gamma * wb_K x (pressure_at P s)) with v end.
  - apply deriv_ext with (2 := D2). intros y. unfold plus_fct, mult_real_fct, wb_step. ring.
  - unfold wb_K. destruct H as [H1 H2 _]. assert (R0 : 0 < r_sat P x (pressure_at P s)) by (apply r_sat_pos; [exact (sc_ad P A)|exact He]). assert (0 < c_vv P * r_sat P x (pressure_at P s)) by (apply Rmult_lt_0_compat; assumption). field. lra.
Qed.
Theorem wet_bulb_local_convergence : forall gamma s x, 0 <= a_rv s -> w_sat3 P < x -> e_sat P x < pressure_at P s -> is_wet_bulb s x ->
  let l := Rabs (1 - gamma - gamma * wb_K x (pressure_at P s)) in
  (forall q, l < q -> q < 1 -> exists d, 0 < d /\ forall y n, Rabs (y - x) < d -> Rabs (niter n (wb_step gamma s) y - x) <= q ^ n * Rabs (y - x)) /\
  (1 < l -> exists d, 0 < d /\ forall y, 0 < Rabs (y - x) < d -> Rabs (y - x) < Rabs (wb_step gamma s y - x)).
Proof.
  intros gamma s x Hr H3 He Hx l. pose proof (wb_step_deriv gamma s x Hr H3 He Hx) as D. assert (F : wb_step gamma s x = x) by (unfold wb_step; rewrite Hx; ring).
  split; [intros q Hq Hq1; eapply attracted; eauto|intros Hl; eapply repelled; eauto].
Qed.
End WetBulb.

(** ** The default parameters *)
Example default_heat_capacities : heat_capacities default_params. Proof. split; unfold wb_a; cbn; lra. Qed.
Notation D := default_params.
(** Air of any temperature and humidity, at 1000 hPa *)
Definition make_air (T r : R) : air := {| a_rho := p_0 D / (R_d D * (T * (1 + r * R_v D / R_d D))); a_theta := T * (1 + r * R_v D / R_d D); a_rv := r |}.
Lemma make_air_spec T r : 0 < T -> 0 <= r -> temperature_at D (make_air T r) = T /\ pressure_at D (make_air T r) = 100000.
Proof.
  intros HT Hr. set (th := T * (1 + r * R_v D / R_d D)). assert (K : 0 < 1 + r * R_v D / R_d D) by (cbn; assert (0 <= r * 461 / 287) by (apply Rmult_le_pos; [apply Rmult_le_pos; lra|lra]); lra).
  assert (Hth : 0 < th) by (apply Rmult_lt_0_compat; assumption).
  assert (Ex : exner_at D (make_air T r) = 1).
  { unfold exner_at, exner_pressure. cbn [a_rho a_theta make_air]. fold th. replace (p_0 D / (R_d D * th) * R_d D * th / p_0 D) with 1 by (cbn; field; lra). unfold Rpower. rewrite ln_1, Rmult_0_r. apply exp_0. }
  unfold temperature_at, pressure_at. rewrite Ex. split.
  - unfold T_of. cbn [a_theta a_rv make_air]. field. split; [cbn; lra|]. cbn in K |- *. lra.
  - unfold p_of, Rpower. rewrite ln_1, Rmult_0_r, exp_0. cbn. lra.
Qed.
(** Air at 30 degrees wet-bulb temperature *)
Lemma exp_low x n : (0 < n)%nat -> 0 <= x -> (1 + x / INR n) ^ n <= exp x.
Proof.
  intros Hn Hx. assert (N : 0 < INR n) by (apply lt_0_INR; exact Hn). replace x with (INR n * (x / INR n)) at 2 by (field; lra).
  assert (E : exp (INR n * (x / INR n)) = exp (x / INR n) ^ n). { generalize (x / INR n). clear. intros y. induction n as [|n IH]; [rewrite Rmult_0_l; apply exp_0|]. rewrite S_INR. replace ((INR n + 1) * y) with (y + INR n * y) by ring. rewrite exp_plus, IH. reflexivity. }
  rewrite E. apply pow_incr. split; [|apply exp_ge]. assert (0 <= x / INR n) by (apply Rmult_le_pos; [exact Hx|left; apply Rinv_0_lt_compat; exact N]). lra.
Qed.
Lemma exp_high x n : (0 < n)%nat -> 0 <= x -> x < INR n -> exp x <= / (1 - x / INR n) ^ n.
Proof.
  intros Hn Hx Hlt. assert (N : 0 < INR n) by (apply lt_0_INR; exact Hn).
  assert (E : exp (- x) = exp (- (x / INR n)) ^ n). { replace (- x) with (INR n * (- (x / INR n))) by (field; lra). generalize (- (x / INR n)). clear. intros y. induction n as [|n IH]; [rewrite Rmult_0_l; apply exp_0|]. rewrite S_INR. replace ((INR n + 1) * y) with (y + INR n * y) by ring. rewrite exp_plus, IH. reflexivity. }
  assert (L : (1 - x / INR n) ^ n <= exp (- x)). { rewrite E. apply pow_incr. split; [|pose proof (exp_ge (- (x / INR n))); lra]. assert (x / INR n < 1) by (apply (Rmult_lt_reg_r (INR n)); [exact N|]; unfold Rdiv; rewrite Rmult_assoc, Rinv_l; lra). lra. }
  replace (exp x) with (/ exp (- x)) by (rewrite exp_Ropp, Rinv_inv; reflexivity). apply Rinv_le_contravar; [|exact L]. apply pow_lt. assert (x / INR n < 1) by (apply (Rmult_lt_reg_r (INR n)); [exact N|]; unfold Rdiv; rewrite Rmult_assoc, Rinv_l; lra). lra.
Qed.
Lemma INR_16 : INR 16 = 16. Proof. rewrite INR_IZR_INZ. reflexivity. Qed.
Lemma es_30 : 3700 <= e_sat D 303.15 <= 4900.
Proof.
  unfold e_sat. cbn. replace (- -17.27 * (303.15 - 273.15) / (303.15 - 35.86)) with (51810/26729) by lra.
  assert (L : 6.1 <= exp (51810/26729)).
  { refine (Rle_trans _ ((1 + 51810/26729 / INR 16) ^ 16) _ _ (exp_low (51810/26729) 16 _ _)); [|lia|lra]. rewrite INR_16. apply Rle_trans with (1.1211 ^ 16); [lra|]. apply pow_incr. lra. }
  assert (U : exp (51810/26729) <= 8).
  { refine (Rle_trans _ _ _ (exp_high (51810/26729) 16 _ _ _) _); [lia|lra|rewrite INR_16; lra|]. rewrite INR_16. replace 8 with (/ (1/8)) by lra. apply Rinv_le_contravar; [lra|]. apply Rle_trans with (0.8788 ^ 16); [lra|]. apply pow_incr. lra. }
  lra.
Qed.
Lemma es_314 : e_sat D 314 < 100000.
Proof.
  unfold e_sat. cbn. replace (- -17.27 * (314 - 273.15) / (314 - 35.86)) with (70547.95/27814) by lra.
  assert (U : exp (70547.95/27814) <= 100).
  { refine (Rle_trans _ _ _ (exp_high (70547.95/27814) 16 _ _ _) _); [lia|lra|rewrite INR_16; lra|]. rewrite INR_16. replace 100 with (/ (1/100)) by lra. apply Rinv_le_contravar; [lra|]. apply Rle_trans with (0.84 ^ 16); [lra|]. apply pow_incr. lra. }
  lra.
Qed.
(** Refuted: with the default weight gamma = 0.5 the iteration does not converge in warm, humid air.  There is air, not saturated, with a wet-bulb
    temperature of 30 degrees (and pressure 1000 hPa) such that every guess near the wet-bulb temperature is moved further away from it by an iteration. *)
Theorem wet_bulb_default_refuted : exists s : air, 0 < a_rv s < r_sat D (temperature_at D s) (pressure_at D s) /\ pressure_at D s = 100000 /\
  303.15 < temperature_at D s /\ is_wet_bulb D s 303.15 /\
  exists d, 0 < d /\ forall y, 0 < Rabs (y - 303.15) < d -> Rabs (y - 303.15) < Rabs (wb_step D (1/2) s y - 303.15).
Proof.
  set (x := 303.15). destruct es_30 as [EL EU]. fold x in EL, EU. set (rs := r_sat D x 100000).
  assert (RS : 0 < rs) by (apply r_sat_pos; [exact default_admissible|lra]). set (r := 9/10 * rs).
  set (q := (c_vv D * rs + cv D) / (c_vv D * r + cv D)). set (al := wb_a D / c_vv D).
  assert (Qp : 1 < q). { unfold q, r. apply (Rmult_lt_reg_r (c_vv D * (9/10 * rs) + cv D)); [cbn; lra|]. unfold Rdiv at 2. rewrite Rmult_assoc, Rinv_l by (cbn; lra). cbn. lra. }
  assert (Al : 0 < al) by (unfold al, wb_a; cbn; lra). assert (Pw : 1 < Rpower q al). { unfold Rpower. rewrite <- exp_0. apply exp_increasing. apply Rmult_lt_0_compat; [exact Al|]. rewrite <- ln_1. apply ln_increasing; lra. }
  assert (AB : wb_a D * x + wb_b D = -2291217.85) by (unfold wb_a, wb_b, x; cbn; lra). assert (Av : wb_a D = 2762) by (unfold wb_a; cbn; lra).
  set (T := - wb_b D / wb_a D + (wb_a D * x + wb_b D) / wb_a D / Rpower q al).
  assert (HT : x < T).
  { unfold T. rewrite AB. assert (Xe : x = - wb_b D / wb_a D + -2291217.85 / wb_a D) by (rewrite <- AB, Av; field). rewrite Xe at 1. apply Rplus_lt_compat_l. rewrite Av. assert (/ Rpower q al < 1) by (rewrite <- Rinv_1; apply Rinv_lt_contravar; lra). unfold Rdiv. nra. }
  set (s := make_air T r). assert (Hr : 0 < r) by (unfold r; lra). destruct (make_air_spec T r ltac:(unfold x in HT; lra) ltac:(lra)) as [Ts Ps]. fold s in Ts, Ps.
  assert (WB : is_wet_bulb D s x).
  { unfold is_wet_bulb, wet_bulb_expr. rewrite Ts, Ps. fold rs. change (a_rv s) with r. fold q al. replace (wb_a D * T + wb_b D) with ((wb_a D * x + wb_b D) / Rpower q al) by (unfold T; rewrite Av; field; lra). rewrite Av. field. lra. }
  exists s. split.
  - split; [exact Hr|]. rewrite Ts, Ps. change (a_rv s) with r.
    (* the vapour is nine tenths of that of saturated air at the wet-bulb temperature, which is less than that at the temperature *)
    assert (L : e_sat D T < 100000).
    { apply Rle_lt_trans with (e_sat D 314); [|exact es_314]. apply es_incr_le; [exact default_saturation_curve|unfold x in HT; cbn; lra|].
      assert (RU : rs <= 0.0321) by (unfold rs, r_sat; cbn; apply (Rmult_le_reg_r (100000 - e_sat D x)); [lra|]; unfold Rdiv; rewrite Rmult_assoc, Rinv_l by lra; lra).
      assert (QU : q <= 1.0064). { unfold q, r. apply (Rmult_le_reg_r (c_vv D * (9/10 * rs) + cv D)); [cbn; lra|]. unfold Rdiv at 1. rewrite Rmult_assoc, Rinv_l by (cbn; lra). cbn. lra. }
      assert (PU : Rpower q al <= 1.0129).
      { apply Rle_trans with (Rpower q 2); [apply Rle_Rpower; [lra|unfold al, wb_a; cbn; lra]|]. replace 2 with (INR 2) by (cbn; ring). rewrite Rpower_pow by lra. apply Rle_trans with (1.0064 ^ 2); [apply pow_incr; lra|lra]. }
      unfold T. rewrite AB, Av. assert (IU : / 1.0129 <= / Rpower q al) by (apply Rinv_le_contravar; lra). unfold wb_b, Rdiv. cbn. lra. }
    pose proof (rs_incr D default_saturation_curve x T 100000 ltac:(unfold x; cbn; lra) HT L) as RI. fold rs in RI. unfold r. lra.
  - split; [exact Ps|]. split; [rewrite Ts; exact HT|]. split; [exact WB|].
    destruct (wet_bulb_local_convergence D default_saturation_curve default_heat_capacities (1/2) s x) as [_ Rep]; try assumption; try (rewrite Ps; lra); [left; exact Hr|unfold x; cbn; lra|].
    apply Rep. rewrite Ps. assert (KL : 3.2 < wb_K D x 100000); [|rewrite Rabs_left; lra].
    unfold wb_K. fold rs. assert (RU : rs <= 0.0321) by (unfold rs, r_sat; cbn; apply (Rmult_le_reg_r (100000 - e_sat D x)); [lra|]; unfold Rdiv; rewrite Rmult_assoc, Rinv_l by lra; lra).
    assert (F1 : 2990 <= (Lv D x - R_v D * x) / (cv D + c_vv D * rs)).
    { apply (Rmult_le_reg_r (cv D + c_vv D * rs)); [cbn; lra|]. unfold Rdiv. rewrite Rmult_assoc, Rinv_l by (cbn; lra). unfold Lv, x. cbn. lra. }
    assert (F2 : 0.0014 <= rs_deriv_value D x 100000).
    { unfold rs_deriv_value. set (e := e_sat D x) in *. set (k := R_d D / R_v D * 100000 * slope_k D / (x - w_sat3 D) ^ 2). assert (KV : 3560 <= k <= 3580) by (unfold k, slope_k, x; cbn; lra).
      replace (R_d D / R_v D * 100000 * e * slope_k D / ((100000 - e) ^ 2 * (x - w_sat3 D) ^ 2)) with (e * k / (100000 - e) ^ 2) by (unfold k, x; cbn [w_sat3 R_v default_params]; field; repeat split; lra).
      assert (0 < (100000 - e) ^ 2) by (apply pow_lt; lra). apply (Rmult_le_reg_r ((100000 - e) ^ 2)); [assumption|]. unfold Rdiv. rewrite Rmult_assoc, Rinv_l by lra.
      apply Rle_trans with (0.0014 * (96300 ^ 2)); [apply Rmult_le_compat_l; [lra|]; apply pow_incr; lra|]. nra. }
    apply Rlt_le_trans with (2990 * 0.0014); [lra|]. apply Rmult_le_compat; lra.
Qed.
(** Example: air at the freezing point with a dewpoint of -10 degrees has a wet-bulb temperature, and there the default iteration converges. *)
Example wet_bulb_example : let s := make_air 273.15 (r_sat D 263.15 100000) in
  exists x, is_wet_bulb D s x /\ 263.15 < x < 273.15 /\ exists d, 0 < d /\ forall y n, Rabs (y - x) < d -> Rabs (niter n (wb_step D (1/2) s) y - x) <= (3/4) ^ n * Rabs (y - x).
Proof.
  intros s. assert (ET : e_sat D 273.15 = 610.9). { unfold e_sat. cbn. replace (- -17.27 * (273.15 - 273.15) / (273.15 - 35.86)) with 0 by lra. rewrite exp_0. lra. }
  assert (Ed : e_sat D 263.15 < 610.9) by (rewrite <- ET; apply es_incr; [exact default_saturation_curve|cbn; lra|lra]).
  assert (Hr : 0 < r_sat D 263.15 100000) by (apply r_sat_pos; [exact default_admissible|lra]).
  destruct (make_air_spec 273.15 (r_sat D 263.15 100000) ltac:(lra) ltac:(lra)) as [Ts Ps]. fold s in Ts, Ps.
  destruct (wet_bulb_exists_unique D default_saturation_curve default_heat_capacities s 263.15) as (x & Wx & Bx & _); [| | | | | |]; rewrite ?Ts, ?Ps.
  - change (a_rv s) with (r_sat D 263.15 100000). lra.
  - unfold Lv. cbn. lra.
  - cbn. lra.
  - lra.
  - split; [cbn; lra|]. rewrite Ps. split; [lra|reflexivity].
  - lra.
  - exists x. rewrite Ts in Bx. split; [exact Wx|]. split; [exact Bx|].
    assert (Ex : e_sat D x < 610.9) by (rewrite <- ET; apply es_incr; [exact default_saturation_curve|cbn; lra|lra]). pose proof (es_pos D default_saturation_curve x) as E0.
    destruct (wet_bulb_local_convergence D default_saturation_curve default_heat_capacities (1/2) s x) as [At _]; [change (a_rv s) with (r_sat D 263.15 100000); lra|cbn; lra|rewrite Ps; lra|exact Wx|].
    apply At; [|lra]. rewrite Ps.
    assert (RS : 0 < r_sat D x 100000) by (apply r_sat_pos; [exact default_admissible|lra]).
    assert (F1 : 0 < (Lv D x - R_v D * x) / (cv D + c_vv D * r_sat D x 100000) <= 3500).
    { assert (0 < cv D + c_vv D * r_sat D x 100000) by (cbn in *; lra). assert (N : 0 < Lv D x - R_v D * x <= 2500000) by (unfold Lv; cbn; lra). split; [apply Rdiv_lt_0_compat; lra|].
      apply (Rmult_le_reg_r (cv D + c_vv D * r_sat D x 100000)); [assumption|]. unfold Rdiv. rewrite Rmult_assoc, Rinv_l by lra. cbn in *. lra. }
    assert (F2 : 0 < rs_deriv_value D x 100000 <= 0.00032).
    { unfold rs_deriv_value. assert (0 < (100000 - e_sat D x) ^ 2) by (apply pow_lt; lra). assert (0 < (x - w_sat3 D) ^ 2) by (apply pow_lt; cbn; lra).
      assert (K : 4097 < slope_k D < 4099) by (unfold slope_k; cbn; lra). split.
      - apply Rdiv_lt_0_compat; [|apply Rmult_lt_0_compat; assumption]. apply Rmult_lt_0_compat; [|lra]. apply Rmult_lt_0_compat; [cbn; lra|lra].
      - apply (Rmult_le_reg_r ((100000 - e_sat D x) ^ 2 * (x - w_sat3 D) ^ 2)); [apply Rmult_lt_0_compat; assumption|]. unfold Rdiv at 1. rewrite Rmult_assoc, Rinv_l, Rmult_1_r by (apply Rgt_not_eq, Rmult_lt_0_compat; assumption).
        apply Rle_trans with (0.00032 * (99389 ^ 2 * 227 ^ 2)).
        + apply Rle_trans with (62300 * 610.9 * 4099); [|lra]. apply Rmult_le_compat; [|lra| |lra]; [apply Rmult_le_pos; [cbn; lra|lra]|]. apply Rmult_le_compat; cbn; lra.
        + apply Rmult_le_compat_l; [lra|]. apply Rmult_le_compat; [apply pow_le; lra|apply pow_le; lra|apply pow_incr; lra|apply pow_incr; cbn; lra]. }
    assert (K : 0 < wb_K D x 100000 <= 3500 * 0.00032) by (unfold wb_K; split; [apply Rmult_lt_0_compat; lra|apply Rmult_le_compat; lra]).
    apply Rabs_def1; lra.
Qed.
